(** C47-C50: discrete dynamics *)
From Coq Require Import List Arith ZArith Bool String QArith Qcanon Floats.SpecFloat Lia.
From Verif Require Import Scalar Base Spatial SpecGeo Joint Body Kin InvDyn FwdDyn Opspace OpspaceAba Deriv Sim Ops Discrete Instances Specs SpecCache SpecKin SpecDyn SpecDiscrete Samples Checks DiscreteProofs DiscreteTravel DiscreteApi DiscreteStill DiscreteConv DiscreteSamples DiscreteWitness ControlProofs PropControl.
Import ListNotations.
Local Open Scope k_scope.

(** C47.  Without discrete integration in the history, the impulses are those of a
    robot with the same observable state and a newly allocated cache. *)
Theorem C47_fresh : forall {S : Scal} solve pinv log6 dlog6 norm {AC : AddComm S} h ab mem qn dt fe grav,
  dreached solve pinv log6 dlog6 norm h ab -> dbase_fixed false h = true -> no_integration h = true -> dts_ok h -> told_apart dt ->
  outcome (q_DiscreteID log6 dlog6 qn dt fe grav ab) = outcome (q_DiscreteID log6 dlog6 qn dt fe grav (cold ab mem)).
Proof. exact @c47_fresh. Qed.
Print Assumptions C47_fresh.
(** The steps meant, for doubles. *)
Theorem C47_steps : forall sn cs tr x, (forall s, x <> S754_zero s) -> @told_apart (F64of sn cs tr) x.
Proof. exact f64_told_apart. Qed.
Print Assumptions C47_steps.
(** Their value: each link's own inertia, over the step to come and the step before. *)
Theorem C47_impulses : forall {S : Scal} {L : ScalLaws S} {ES : EqSound S} solve pinv log6 dlog6 norm h ab qn dt fe (grav : bool),
  dreached solve pinv log6 dlog6 norm h ab -> dbase_fixed false h = true -> no_integration h = true ->
  rigid_robot ab -> List.length qn = ab_dof ab ->
  exists X Xp Xn J G v,
    posed ab (ab_q ab) X /\ posed ab (vmap2 (ab_dof ab) (fun x v => x - dt * v) (ab_q ab) (ab_dq ab)) Xp /\ posed ab qn Xn /\
    jacobians ab J /\ outcome (ask solve pinv QGrav ab) = Ok (AVec G) /\
    outcome (q_DiscreteID log6 dlog6 qn dt fe grav ab) = Ok v /\ List.length v = ab_dof ab /\
    forall j, (j < ab_dof ab)%nat ->
      coef v j = over_links ab (fun k =>
          let B := rb_inertia (nth k (ab_rbs ab) rb_default) in
          let d := in_axes (X k) (col (J k v3zero) j) in
          action log6 dlog6 B dt (seen_from (X k) (Xn k)) d -
          action log6 dlog6 B dt (seen_from (Xp k) (X k)) (mact (seen_from (Xp k) (X k)) d) -
          match fe k with Some f => dt * power_at (tra (X k)) f (col (J k v3zero) j) | None => 0 end) +
        (if grav then dt * coef G j else 0).
Proof. exact @c47_impulses. Qed.
Print Assumptions C47_impulses.
(** A branching robot with a load, asked at several steps before. *)
Example dbusy_reached : dreached solve_i pinv0 log_r dlog_r sumsq dbusy (drobot solve_i log_r dlog_r dbusy 7).
Proof. apply drobot_reached. vm_compute. reflexivity. Qed.
Example C47_example : dbase_fixed false dbusy = true /\ no_integration dbusy = true /\ dts_ok dbusy /\
  rigid_robot (drobot solve_i log_r dlog_r dbusy 7) /\ ab_dof (drobot solve_i log_r dlog_r dbusy 7) = 4%nat /\
  dfracs (outcome (q_DiscreteID log_r dlog_r (map qz [1; 0; 2; 1]%Z) (qq 1 2) pull true (drobot solve_i log_r dlog_r dbusy 7))) =
    [(-484396951153, 3797640625); (-132, 5); (1194822869797, 7595281250); (2504988771043, 75952812500)]%Z.
Proof.
  split; [reflexivity|]. split; [reflexivity|]. split; [apply dts_all|]. split; [apply rigid_robotb_ok; vm_compute; reflexivity|]. split; vm_compute; reflexivity.
Qed.

(** C48.  Steps of one length, with any other queries in between, that all converge. *)
Theorem C48_recurrence : forall {S : Scal} {L : ScalLaws S} {ES : EqSound S} solve pinv log6 dlog6 norm h ab dt mem legs abs,
  dreached solve pinv log6 dlog6 norm h ab -> dbase_fixed false h = true -> no_integration h = true ->
  dt <> 0 -> keq dt dt = true -> travel solve pinv log6 dlog6 norm dt legs ab = Some abs ->
  obeys log6 dlog6 norm dt mem (vmap2 (ab_dof ab) (fun x v => x - dt * v) (ab_q ab) (ab_dq ab)) ab legs abs.
Proof. exact @c48. Qed.
Print Assumptions C48_recurrence.
Definition states (r : option (list (@body QcScal))) : list (list (Z * Z) * list (Z * Z)) :=
  match r with Some l => map (fun ab => (map frac (ab_q ab), map frac (ab_dq ab))) l | None => [] end.
Example cart_reached : dreached solve_i pinv0 log_s dlog_s sumsq cart (drobot solve_i log_s dlog_s cart 7).
Proof. apply drobot_reached. vm_compute. reflexivity. Qed.
Example C48_example : dbase_fixed false cart = true /\ no_integration cart = true /\
  states (travel solve_i pinv0 log_s dlog_s sumsq (qz 1) [push 1 2; push (-1) 1; push 0 0] (drobot solve_i log_s dlog_s cart 7)) =
   [([(7, 1); (5, 1)], [(9, 2); (1, 1)]); ([(13, 1); (17, 2)], [(6, 1); (13, 4)]); ([(19, 1); (12, 1)], [(6, 1); (7, 2)])]%Z.
Proof. split; [reflexivity|]. split; [reflexivity|]. vm_compute. reflexivity. Qed.

(** C49.  Time reversal: coming with velocity a and leaving with b takes the impulses
    that coming with -b and leaving with -a takes. *)
Theorem C49_reversal : forall {S : Scal} {L : ScalLaws S} {ES : EqSound S} solve pinv log6 dlog6 norm h ab a b dt fe grav mem,
  dreached solve pinv log6 dlog6 norm h ab -> dbase_fixed false h = true -> no_integration h = true ->
  rigid_robot ab -> reversible log6 dlog6 -> List.length a = ab_dof ab -> List.length b = ab_dof ab ->
  let n := ab_dof ab in let q := ab_q ab in
  outcome (q_DiscreteID log6 dlog6 (vmap2 n (fun x v => x + dt * v) q b) dt fe grav (restart ab q a mem)) =
  outcome (q_DiscreteID log6 dlog6 (vmap2 n (fun x v => x - dt * v) q a) dt fe grav (restart ab q (map kopp b) mem)).
Proof. exact @c49_reversal. Qed.
Print Assumptions C49_reversal.
Example C49_reversible : @reversible QcScal log_r dlog_r.
Proof. apply reversible_r. Qed.
(** At rest: the continuous static torques times the step. *)
Theorem C49_rest : forall {S : Scal} {L : ScalLaws S} {ES : EqSound S} solve pinv log6 dlog6 norm h ab dt fe (grav : bool) G E,
  dreached solve pinv log6 dlog6 norm h ab -> dbase_fixed false h = true -> no_integration h = true ->
  rigid_robot ab -> log6 iso_id = mzero -> (forall j, (j < ab_dof ab)%nat -> coef (ab_dq ab) j = 0) ->
  outcome (ask solve pinv QGrav ab) = Ok (AVec G) -> outcome (ask solve pinv (QExt fe) ab) = Ok (AVec E) ->
  exists v, outcome (q_DiscreteID log6 dlog6 (ab_q ab) dt fe grav ab) = Ok v /\ List.length v = ab_dof ab /\
  forall j, (j < ab_dof ab)%nat -> coef v j = dt * (coef E j + (if grav then coef G j else 0)).
Proof. exact @c49_rest. Qed.
Print Assumptions C49_rest.
(** A robot at rest under balancing torques stays where it is. *)
Theorem C49_balance : forall {S : Scal} {L : ScalLaws S} {PL : PosLaws S} {ES : EqSound S} solve pinv log6 dlog6 norm h ab A tau dt fe (grav : bool) eps cap G E,
  dreached solve pinv log6 dlog6 norm h ab -> dbase_fixed false h = true -> no_integration h = true ->
  proper ab -> outcome (ask solve pinv QInertia ab) = Ok (AMat A) -> solver_ok solve (ab_dof ab) A -> injective (ab_dof ab) A ->
  log6 iso_id = mzero -> (forall j, (j < ab_dof ab)%nat -> coef (ab_dq ab) j = 0) ->
  outcome (ask solve pinv QGrav ab) = Ok (AVec G) -> outcome (ask solve pinv (QExt fe) ab) = Ok (AVec E) ->
  List.length tau = ab_dof ab -> (forall j, (j < ab_dof ab)%nat -> coef tau j = coef E j + (if grav then coef G j else 0)) ->
  (0 < cap)%nat -> klt (norm (repeat 0 (ab_dof ab))) eps = true ->
  exists ab', q_DiscreteIntegrate solve log6 dlog6 norm tau dt fe grav eps cap ab = Ok (ab', true) /\ ab_q ab' = ab_q ab /\
    (forall j, (j < ab_dof ab)%nat -> coef (ab_dq ab') j = 0).
Proof. exact @c49_still. Qed.
Print Assumptions C49_balance.
(** The branching robot at rest, pulled at one link. *)
Definition at_rest : @body QcScal := drobot solve_i log_r dlog_r drest 7.
Definition holding : list (@K QcScal) :=
  map (fun j => kadd (coef (answer_vec (outcome (ask solve_i pinv0 (QExt pull) at_rest))) j) (coef (answer_vec (outcome (ask solve_i pinv0 QGrav at_rest))) j)) (seq 0 4).
Example C49_balance_example : dreached solve_i pinv0 log_r dlog_r sumsq drest at_rest /\ dbase_fixed false drest = true /\ no_integration drest = true /\
  proper at_rest /\ @log_r QcScal iso_id = mzero /\ ab_dof at_rest = 4%nat /\ (forall j, coef (ab_dq at_rest) j = k0) /\
  (exists A, outcome (ask solve_i pinv0 QInertia at_rest) = Ok (AMat A) /\ solver_ok solve_i 4 A /\ injective 4 A) /\
  klt (sumsq (repeat k0 4)) (qq 1 1000) = true /\ map frac holding <> map (fun _ => (0, 1)%Z) (seq 0 4).
Proof.
  split; [apply drobot_reached; vm_compute; reflexivity|]. split; [reflexivity|]. split; [reflexivity|].
  split; [apply properb_ok; vm_compute; reflexivity|]. split; [apply log_r_id|]. split; [vm_compute; reflexivity|].
  split; [|split; [|split; [vm_compute; reflexivity|vm_compute; discriminate]]].
  - assert (E : forallb (fun x => keq x k0) (ab_dq at_rest) = true) by (vm_compute; reflexivity). rewrite forallb_forall in E.
    intros j. unfold coef. destruct (nth_in_or_default j (ab_dq at_rest) k0) as [I| ->]; [|reflexivity]. apply keq_sound. exact (E _ I).
  - pose (r := outcome (ask solve_i pinv0 QInertia at_rest)). exists (answer_mat r). fold r.
    assert (I : inverseb 4 (answer_mat r) (inv0 (answer_mat r)) = true) by (vm_compute; reflexivity).
    assert (N : List.length (answer_mat r) = 4%nat) by (vm_compute; reflexivity).
    assert (M : match r with Ok (AMat _) => true | _ => false end = true) by (vm_compute; reflexivity).
    pose proof (inverseb_ok _ _ _ I) as H. clear I. clearbody r. split; [apply answer_mat_ok; exact M|].
    split; [apply (solver_inverse inv0); [exact N|]; intros i j Hi Hj; exact (proj1 (H i j Hi Hj))|].
    apply (injective_inverse 4 _ (inv0 (answer_mat r))). intros i j Hi Hj. exact (proj2 (H i j Hi Hj)).
Qed.
(** Sliding joints and no loads: the impulses are the step times the torques of
    InverseDynamics for the acceleration the step needs. *)
Theorem C49_sliding : forall {S : Scal} {L : ScalLaws S} {ES : EqSound S} solve pinv log6 dlog6 norm {PL : PosLaws S} h ab qn dt fe o,
  dreached solve pinv log6 dlog6 norm h ab -> dbase_fixed false h = true -> no_integration h = true ->
  proper ab -> proper_joints ab -> sliding_joints ab -> (forall k, (k < ab_dof ab)%nat -> ab_loads ab (Z.of_nat k) = None) ->
  straight log6 dlog6 -> dt <> 0 -> List.length qn = ab_dof ab -> o_fric o = false ->
  exists v tau, outcome (q_DiscreteID log6 dlog6 qn dt fe (o_grav o) ab) = Ok v /\
    outcome (ask solve pinv (QID (acceleration_to ab dt qn) fe o) ab) = Ok (AVec tau) /\
  forall j, (j < ab_dof ab)%nat -> coef v j = dt * coef tau j.
Proof. exact @c49_sliding. Qed.
Print Assumptions C49_sliding.
Example C49_sliding_example : let ab := drobot solve_i log_s dlog_s cart 7 in
  proper ab /\ proper_joints ab /\ sliding_joints ab /\ (forall k, (k < ab_dof ab)%nat -> ab_loads ab (Z.of_nat k) = None) /\ @straight QcScal log_s dlog_s /\
  dfracs (outcome (q_DiscreteID log_s dlog_s (map qz [3; 3]%Z) (qz 2) pull true ab)) <> map (fun _ => (0, 1)%Z) (seq 0 2).
Proof.
  cbn zeta. split; [apply properb_ok; vm_compute; reflexivity|]. split; [apply proper_jointsb_ok; vm_compute; reflexivity|].
  split; [apply slidingb_ok; vm_compute; reflexivity|]. split; [apply no_loadb_ok; vm_compute; reflexivity|].
  split; [apply straight_s|vm_compute; discriminate].
Qed.

(** There every step converges, within two iterations. *)
Theorem C49_sliding_converges : forall {S : Scal} {L : ScalLaws S} {ES : EqSound S} {PL : PosLaws S} solve pinv log6 dlog6 norm h ab A dt legs,
  dreached solve pinv log6 dlog6 norm h ab -> dbase_fixed false h = true -> no_integration h = true ->
  proper ab -> proper_joints ab -> sliding_joints ab -> (forall k, (k < ab_dof ab)%nat -> ab_loads ab (Z.of_nat k) = None) ->
  straight log6 dlog6 -> dt <> 0 -> keq dt dt = true ->
  outcome (ask solve pinv QInertia ab) = Ok (AMat A) -> solver_ok solve (ab_dof ab) A ->
  Forall (fun l => l_before l = [] /\ List.length (l_tau l) = ab_dof ab /\ (2 <= l_cap l)%nat /\ klt (norm (repeat 0 (ab_dof ab))) (l_eps l) = true) legs ->
  exists abs, travel solve pinv log6 dlog6 norm dt legs ab = Some abs.
Proof. exact @c49_converges. Qed.
Print Assumptions C49_sliding_converges.
(** The two carts; the second step takes two iterations. *)
Definition shove (cap : nat) (a b : Z) : @leg QcScal := Leg [] (map qz [a; b]%Z) none false (qq 1 1000) cap.
Example C49_converges_example : let ab := drobot solve_i log_s dlog_s cart 7 in
  (exists A, outcome (ask solve_i pinv0 QInertia ab) = Ok (AMat A) /\ solver_ok solve_i (ab_dof ab) A) /\
  Forall (fun l => l_before l = [] /\ List.length (l_tau l) = ab_dof ab /\ (2 <= l_cap l)%nat /\ klt (sumsq (repeat k0 (ab_dof ab))) (l_eps l) = true)
    [shove 2 1 2; shove 2 (-1) 1] /\
  is_some (travel solve_i pinv0 log_s dlog_s sumsq (qz 2) [shove 1 1 2] ab) = true /\
  is_some (travel solve_i pinv0 log_s dlog_s sumsq (qz 2) [shove 1 1 2; shove 1 (-1) 1] ab) = false /\
  is_some (travel solve_i pinv0 log_s dlog_s sumsq (qz 2) [shove 2 1 2; shove 2 (-1) 1] ab) = true.
Proof.
  cbn zeta. assert (D : ab_dof (drobot solve_i log_s dlog_s cart 7) = 2%nat) by (vm_compute; reflexivity). rewrite D.
  split; [|split; [|split; [|split]; vm_compute; reflexivity]].
  - pose (r := outcome (ask solve_i pinv0 QInertia (drobot solve_i log_s dlog_s cart 7))). exists (answer_mat r). fold r.
    assert (I : inverseb 2 (answer_mat r) (inv0 (answer_mat r)) = true) by (vm_compute; reflexivity).
    assert (N : List.length (answer_mat r) = 2%nat) by (vm_compute; reflexivity).
    assert (M : match r with Ok (AMat _) => true | _ => false end = true) by (vm_compute; reflexivity).
    pose proof (inverseb_ok _ _ _ I) as H. clear I. clearbody r. split; [apply answer_mat_ok; exact M|].
    apply (solver_inverse inv0); [exact N|]; intros i j Hi Hj; exact (proj1 (H i j Hi Hj)).
  - repeat constructor.
Qed.

(** C50.  Impulses without gravity do not depend on the loads the robot carries. *)
Theorem C50_loads_ignored : forall {S : Scal} solve pinv log6 dlog6 norm {AC : AddComm S} h ab mem qn dt fe loads,
  dreached solve pinv log6 dlog6 norm h ab -> dbase_fixed false h = true -> no_integration h = true -> dts_ok h -> told_apart dt ->
  outcome (q_DiscreteID log6 dlog6 qn dt fe false ab) = outcome (q_DiscreteID log6 dlog6 qn dt fe false (cold (with_links ab (ab_rbs ab) loads) mem)).
Proof. exact @c50_loads. Qed.
Print Assumptions C50_loads_ignored.
(** With a load on it, a robot of sliding joints does not get the torques of
    InverseDynamics (compare C49_sliding). *)
Theorem C50_loads_refuted : exists h (ab : @body QcScal) qn dt o v tau,
  dreached solve_i pinv0 log_s dlog_s sumsq h ab /\ dbase_fixed false h = true /\ no_integration h = true /\
  proper ab /\ proper_joints ab /\ sliding_joints ab /\ @straight QcScal log_s dlog_s /\ o_fric o = false /\
  outcome (q_DiscreteID log_s dlog_s qn dt none (o_grav o) ab) = Ok v /\
  outcome (ask solve_i pinv0 (QID (acceleration_to ab dt qn) none o) ab) = Ok (AVec tau) /\
  coef v 0 <> dt * coef tau 0.
Proof. exact loads_refuted. Qed.
Print Assumptions C50_loads_refuted.
(** A robot that has made a (converged) step does not answer as one in the same state
    that has not (compare C47_fresh). *)
Theorem C50_memory_refuted : exists h (ab : @body QcScal) mem qn dt fe grav,
  dreached solve_i pinv0 log_s dlog_s sumsq h ab /\ dbase_fixed false h = true /\ dts_ok h /\ told_apart dt /\
  outcome (q_DiscreteID log_s dlog_s qn dt fe grav ab) <> outcome (q_DiscreteID log_s dlog_s qn dt fe grav (cold ab mem)).
Proof. exact memory_refuted. Qed.
Print Assumptions C50_memory_refuted.
(** One query with another step in between makes it answer so again ... *)
Theorem C50_query_forgets : forall {S : Scal} {L : ScalLaws S} {ES : EqSound S} solve pinv log6 dlog6 norm h ab dt legs abs ab' v mem qn2 dt2 fe2 grav2 qn fe grav,
  dreached solve pinv log6 dlog6 norm h ab -> dbase_fixed false h = true -> no_integration h = true -> keq dt dt = true -> keq dt2 dt = false ->
  travel solve pinv log6 dlog6 norm dt legs ab = Some abs -> q_DiscreteID log6 dlog6 qn2 dt2 fe2 grav2 (last abs ab) = Ok (ab', v) ->
  outcome (q_DiscreteID log6 dlog6 qn dt fe grav ab') = outcome (q_DiscreteID log6 dlog6 qn dt fe grav (cold (last abs ab) mem)).
Proof. exact @c50_forget. Qed.
Print Assumptions C50_query_forgets.
Definition pushed : option (list (@body QcScal)) := travel solve_i pinv0 log_s dlog_s sumsq (qz 1) [push 1 2; push (-1) 1] (drobot solve_i log_s dlog_s cart 7).
Example C50_query_example : exists abs ab' v, pushed = Some abs /\
  q_DiscreteID log_s dlog_s (map qz [4; 4]%Z) (qz 2) none false (last abs (drobot solve_i log_s dlog_s cart 7)) = Ok (ab', v) /\ keq (qz 2) (qz 1) = false.
Proof.
  assert (X : is_some pushed = true) by (vm_compute; reflexivity).
  exists (match pushed with Some l => l | None => [] end). do 2 eexists. split; [destruct pushed; [reflexivity|discriminate]|].
  split; [|reflexivity]. apply (res_pair _ (drobot solve_i log_s dlog_s cart 7, [])). vm_compute. reflexivity.
Qed.
(** ... so a query changes what later calls return. *)
Theorem C50_query_refuted : exists h (ab ab' : @body QcScal) v qn2 dt2 qn dt,
  dreached solve_i pinv0 log_s dlog_s sumsq h ab /\ q_DiscreteID log_s dlog_s qn2 dt2 none false ab = Ok (ab', v) /\
  outcome (q_DiscreteID log_s dlog_s qn dt none false ab) <> outcome (q_DiscreteID log_s dlog_s qn dt none false ab').
Proof. exact query_refuted. Qed.
Print Assumptions C50_query_refuted.
(** A step that runs out of iterations, which is not reported, leaves behind a
    momentum that does not belong to the configurations (compare C48). *)
Theorem C50_unconverged_refuted : exists h (ab ab' : @body QcScal) tau dt eps cap qn mem,
  dreached solve_i pinv0 log_s dlog_s sumsq h ab /\ dbase_fixed false h = true /\ no_integration h = true /\
  q_DiscreteIntegrate solve_i log_s dlog_s sumsq tau dt none false eps cap ab = Ok (ab', false) /\
  outcome (q_DiscreteID log_s dlog_s qn dt none false ab') <>
  outcome (q_DiscreteID log_s dlog_s qn dt none false (restart ab' (ab_q ab') (vmap2 (ab_dof ab) (fun x y => (x - y) / dt) (ab_q ab') (ab_q ab)) mem)).
Proof. exact unconverged_refuted. Qed.
Print Assumptions C50_unconverged_refuted.
(** With a limit of no iterations the velocity stored is computed from memory never
    written. *)
Theorem C50_no_iterations_refuted : exists h name (mem1 mem2 : @cache QcScal) ab1 ab2,
  drun solve_i pinv0 log_s dlog_s sumsq h (body_new name mem1) = Some ab1 /\ drun solve_i pinv0 log_s dlog_s sumsq h (body_new name mem2) = Some ab2 /\
  dbase_fixed false h = true /\ ab_q ab1 = ab_q ab2 /\ ab_dq ab1 <> ab_dq ab2.
Proof. exact no_iterations_refuted. Qed.
Print Assumptions C50_no_iterations_refuted.
(** The velocity stored by a step lags: a step under a torque that accelerates by [a] does not
    add [dt * a] to it. *)
Theorem C50_velocity_refuted : exists h (ab ab' : @body QcScal) tau dt eps cap a,
  dreached solve_i pinv0 log_s dlog_s sumsq h ab /\ dbase_fixed false h = true /\ no_integration h = true /\
  proper ab /\ proper_joints ab /\ sliding_joints ab /\ (forall k, (k < ab_dof ab)%nat -> ab_loads ab (Z.of_nat k) = None) /\ @straight QcScal log_s dlog_s /\
  outcome (ask solve_i pinv0 (QFD tau none (IdOpts false true false k0)) ab) = Ok (AVec a) /\
  q_DiscreteIntegrate solve_i log_s dlog_s sumsq tau dt none false eps cap ab = Ok (ab', true) /\
  coef (ab_q ab') 0 = coef (ab_q ab) 0 + dt * (coef (ab_dq ab) 0 + dt * coef a 0) /\
  coef (ab_dq ab') 0 <> coef (ab_dq ab) 0 + dt * coef a 0.
Proof. exact velocity_refuted. Qed.
Print Assumptions C50_velocity_refuted.
