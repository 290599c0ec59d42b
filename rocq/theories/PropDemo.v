(** C68: the example application apps/opspace/opspace.py *)
From Coq Require Import List Arith ZArith Bool String QArith Qcanon Reals Lra Lia.
From Verif Require Import Scalar Base Spatial SpecGeo Joint Body Kin InvDyn FwdDyn Opspace OpspaceAba Deriv Sim Ops Control Instances Specs SpecCache SpecKin SpecDyn SpecOps SpecSim SpecControl SpecLoop SpecHold PyDemo Samples Checks
  DynApi HoldProofs DemoProofs PropCache PropDyn PropReal PropOps PropControl PropHold.
Import ListNotations.
Local Open Scope nat_scope.

(** Defect.  On a robot at rest (as just loaded) the program leaves its loop after the first
    call: the velocity test of the position task alone makes the status true. *)
Theorem C68_stops : forall {S : Scal} {L : ScalLaws S} {ES : EqSound S} solve pinv h ab pd_pos pd_ori pd_joint home off go fuel ab' l e,
  reached solve pinv h ab -> base_fixed false h = true -> one_threshold k0 h -> 0 < ab_dof ab -> at_rest ab ->
  klt k0 (kmul (klit 1 100) (klit 1 100)) = true -> go 0 = true ->
  demo solve pinv pd_pos pd_ori pd_joint home off go (Datatypes.S fuel) ab = Ok (ab', l, e) ->
  exists tau st, l = [(tau, st)] /\ e = true /\ Z.testbit st 1 = true.
Proof. exact @c68_stops. Qed.
Print Assumptions C68_stops.
(** Over the reals, when the control law reports the difference from the goal: it always ends,
    one millisecond of motion after the start and not within the threshold of the goal 20 cm
    away; the motion is the Runge-Kutta step from the home position at rest. *)
Theorem C68_short : forall solve pinv h (ab : @body RScal) (pd_pos : @v3 RScal -> @v3 RScal -> list (@K RScal) -> list (@K RScal) * list (@K RScal)) pd_ori pd_joint home off,
  reached solve pinv h ab -> base_fixed false h = true -> one_threshold k0 h -> proper ab -> 0 < ab_dof ab ->
  at_rest ab -> List.length home = ab_dof ab ->
  (forall goal x dx, List.length (fst (pd_pos goal x dx)) = 3 /\ snd (pd_pos goal x dx) = [ksub (vx x) (vx goal); ksub (vy x) (vy goal); ksub (vz x) (vz goal)]) ->
  (forall goal Q w, List.length (fst (pd_ori goal Q w)) = 3) -> (forall goal q dq, List.length (pd_joint goal q dq) = ab_dof ab) ->
  exists ab' tau st,
    (forall go fuel, go 0 = true -> demo solve pinv pd_pos pd_ori pd_joint home off go (Datatypes.S fuel) ab = Ok (ab', [(tau, st)], true)) /\
    Z.testbit st 0 = false /\
    state_of ab' = textbook MRk4 (ab_dof ab) (accel solve pinv ab (sim_query false tau (fun _ => None) (@IdOpts RScal true true false (1 / 100)%R))) (1 / 1000)%R
      (home, repeat 0%R (ab_dof ab)).
Proof. exact c68_short. Qed.
Print Assumptions C68_short.
(** Exactly when the loop goes on after a call, on any robot: when none of the four errors is
    within its threshold and the task is not singular.  So it never ends because the goal is
    reached, but as soon as any one test is met (or the arm is singular). *)
Theorem C68_continues : forall {S : Scal} {L : ScalLaws S} {ES : EqSound S} solve pinv h ab go k fuel i ab' l e,
  reached solve pinv h ab -> base_fixed false h = true -> one_threshold k0 h -> go i = true ->
  demo_loop solve pinv go k (Datatypes.S fuel) i ab = Ok (ab', l, e) ->
  exists r, reads solve pinv k ab r /\
    let nothing := ~ within (klit 1 100) (snd (c_pos k (r_x r) (r_dx r))) /\ ~ within (klit 1 100) (r_dx r) /\
      ~ within (klit 1 100) (snd (c_ori k (r_R r) (r_w r))) /\ ~ within (klit 1 100) (r_w r) /\ r_s6 r = false in
    (nothing -> exists ab1 tau l1, demo_loop solve pinv go k fuel (Datatypes.S i) ab1 = Ok (ab', l1, e) /\ l = (tau, 0%Z) :: l1) /\
    (~ nothing -> e = true /\ List.length l = 1).
Proof. exact @c68_continues. Qed.
Print Assumptions C68_continues.

(** A robot of three prismatic joints, at rest; a control law that asks for the differences. *)
Definition toward (goal x : @v3 QcScal) (dx : list (@K QcScal)) : list (@K QcScal) * list (@K QcScal) :=
  ([ksub (vx goal) (vx x); ksub (vy goal) (vy x); ksub (vz goal) (vz x)], [ksub (vx x) (vx goal); ksub (vy x) (vy goal); ksub (vz x) (vz goal)]).
Definition turn_to (goal Q : @m3 QcScal) (w : list (@K QcScal)) : list (@K QcScal) * list (@K QcScal) :=
  ([ksub (vy (r0 Q)) (vy (r0 goal)); qz 0; qz 1], [qz 1; qz 0; qz 0]).
Definition home_q (goal q dq : list (@K QcScal)) : list (@K QcScal) := map (fun i => ksub (coef goal i) (coef q i)) (seq 0 3).
Definition outline_demo (r : res (@body QcScal * list (list (@K QcScal) * Z) * bool)) : option (list Z * bool) :=
  match r with Ok (_, l, e) => Some (map snd l, e) | _ => None end.
Definition cart : list (@op QcScal) := slides ++ [OSetQ (map qz [1; 2; 3]%Z); OAsk QInertia].
Example C68_example : let ab := after pinv0 cart in reached solve_i pinv0 cart ab /\ base_fixed false cart = true /\ one_threshold k0 cart /\ 0 < ab_dof ab /\ at_rest ab /\
  @klt QcScal k0 (kmul (klit 1 100) (klit 1 100)) = true /\
  outline_demo (demo solve_i pinv0 toward turn_to home_q (map qz [0; 1; 2]%Z) (QV 1 0 2) (fun _ => true) 5 ab) = Some ([10%Z], true).
Proof.
  split; [apply after_reached; vm_compute; reflexivity|]. split; [reflexivity|]. split; [apply no_threshold; reflexivity|]. split; [vm_compute; lia|].
  split; [|split; vm_compute; reflexivity].
  assert (M : zerob 3 (ab_dq (after pinv0 cart)) = true) by (vm_compute; reflexivity). apply zerob_ok in M. intros i _. rewrite M. apply coef_rep.
Qed.
(** A slide and a hinge in motion, the goals far away: the loop goes on until interrupted. *)
Definition driven : @controller QcScal :=
  Controller (fun x dx => ([qz 1; qz 0; qz 0], [qz 1; qz 1; qz 1])) (fun Q w => ([qz 0; qz 1; qz 0], [qz 1; qz 0; qz 0])) (fun q dq => [qz 0; qz 1])
    (QV 1 0 2) None (qz 0) (qz 0) (qz 0) (qz 0) true (qz 0).
Definition rolling : list (@op QcScal) := [OAdd (q_link "x" JPx iso_id 1) (-1); OAdd (q_link "rz" JRz iso_id 1) 0; OAsk QInertia; OSetDq (map qz [1; 2]%Z)].
Example C68_rolling : let ab := after pinv0 rolling in reached solve_i pinv0 rolling ab /\ base_fixed false rolling = true /\ one_threshold k0 rolling /\
  outline_demo (demo_loop solve_i pinv0 (fun i => Nat.ltb i 1) driven 5 0 ab) = Some ([0%Z], true).
Proof.
  split; [apply after_reached; vm_compute; reflexivity|]. split; [reflexivity|]. split; [apply no_threshold; reflexivity|]. vm_compute. reflexivity.
Qed.
(** Over the reals: the two-link robot of C64_motion_example. *)
Definition toward_r (goal x : @v3 RScal) (dx : list (@K RScal)) : list (@K RScal) * list (@K RScal) :=
  ([vx goal; vy goal; vz goal], [ksub (vx x) (vx goal); ksub (vy x) (vy goal); ksub (vz x) (vz goal)]).
Example C68_short_example : reached (S:=RScal) (@solve0 RScal) (@pinv0 RScal) r_history r_ab /\ base_fixed false r_history = true /\ one_threshold (@k0 RScal) r_history /\ proper r_ab /\
  0 < ab_dof r_ab /\ at_rest r_ab /\ List.length [1; 2]%R = ab_dof r_ab /\ (forall goal x dx, List.length (fst (toward_r goal x dx)) = 3 /\
    snd (toward_r goal x dx) = [ksub (vx x) (vx goal); ksub (vy x) (vy goal); ksub (vz x) (vz goal)]).
Proof.
  destruct r_robot as ((R0 & B0 & P0 & J0) & D). rewrite D. repeat (split; [first [assumption|lia|apply no_threshold; reflexivity]|]).
  split; [intros [|[|[|i]]] _; reflexivity|]. split; [reflexivity|]. intros; split; reflexivity.
Qed.
