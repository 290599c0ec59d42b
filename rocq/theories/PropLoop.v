(** C64: loops around the task controller of the Python module *)
From Coq Require Import List Arith ZArith Bool String QArith Qcanon Reals Lia.
From Verif Require Import Scalar Base Spatial SpecGeo Joint Body Kin InvDyn FwdDyn Opspace OpspaceAba Deriv Sim Ops Control Instances Specs SpecCache SpecKin SpecDyn SpecOps SpecReal SpecControl SpecSim SpecLoop Samples Checks
  LoopProofs PropOps PropControl PropReal.
Import ListNotations.
Local Open Scope nat_scope.

(** C64.  A control loop: the controllers [ks] are called one after the other on the same
    robot, with or without simulating.  The torques, the statuses and the motion are
    those of a loop that gives the robot a newly allocated cache before every call. *)
Theorem C64_fresh : forall {S : Scal} {L : ScalLaws S} {PL : PosLaws S} {ES : EqSound S} solve pinv h ab ks mem,
  reached solve pinv h ab -> base_fixed false h = true -> one_threshold k0 h -> proper ab ->
  drive solve pinv (fun _ x => x) ks ab = drive solve pinv (fun i x => cold x (mem i)) ks ab.
Proof. exact @c64_fresh. Qed.
Print Assumptions C64_fresh.
(** Three calls, the second without a time step: the statuses (at rest, then moving; the
    six rows always singular) and the positions after each. *)
Definition timed (n : nat) (dt : @K QcScal) : @controller QcScal :=
  Controller (c_pos (pd n)) (c_ori (pd n)) (c_joint (pd n)) (c_off (pd n)) None (c_x (pd n)) (c_dx (pd n)) (c_ori_t (pd n)) (c_w (pd n)) true dt.
Definition outline (r : res (list (@shown_by QcScal))) : list (Z * list (Z * Z)) :=
  match r with Ok l => map (fun '(_, st, q, _) => (st, map frac q)) l | _ => [] end.
Example C64_example :
  let ab := after pinv_s three in
  reached solve_i pinv_s three ab /\ base_fixed false three = true /\ one_threshold k0 three /\ proper ab /\
  outline (drive solve_i pinv_s (fun _ x => x) [timed 3 (qz 2); timed 3 (qz 0); timed 3 (qz 1)] ab) =
    [(26, [(-3, 1); (-2, 1); (-4, 1)]); (24, [(-3, 1); (-2, 1); (-4, 1)]); (24, [(-4, 1); (-3, 1); (-5, 1)])]%Z.
Proof.
  split; [apply after_reached; vm_compute; reflexivity|]. split; [reflexivity|]. split; [apply no_threshold; reflexivity|]. split; [apply properb_ok; vm_compute; reflexivity|].
  vm_compute. reflexivity.
Qed.

(** Over the reals, with controllers that return vectors of the right sizes, no call
    fails, and the motion is the fourth-order Runge-Kutta integration, step after step,
    of the free motion of the robot under gravity and the torques returned. *)
Theorem C64_motion : forall solve pinv h (ab : @body RScal) ks,
  reached (S:=RScal) solve pinv h ab -> base_fixed false h = true -> one_threshold k0 h -> proper ab -> 0 < ab_dof ab ->
  Forall (sized_for (ab_dof ab)) ks ->
  exists l, drive (S:=RScal) solve pinv (fun _ x => x) ks ab = Ok l /\ follows solve pinv ab ks (state_of ab) l.
Proof. exact c64_motion. Qed.
Print Assumptions C64_motion.
Definition pull (n : nat) (dt : R) : @controller RScal :=
  @Controller RScal (fun x dx => ([1; vx x; 2]%R, [])) (fun Q w => ([0; 1; 0]%R, [])) (fun q dq => map (fun i => (- @coef RScal q i)%R) (seq 0 n))
    (@v3zero RScal) None 1%R 1%R 1%R 1%R true dt.
Example C64_motion_example : reached (S:=RScal) (@solve0 RScal) (@pinv0 RScal) r_history r_ab /\ base_fixed false r_history = true /\ one_threshold (@k0 RScal) r_history /\ proper r_ab /\
  0 < ab_dof r_ab /\ Forall (sized_for (ab_dof r_ab)) [pull 2 (1 / 2)%R; pull 2 0%R; pull 2 3%R].
Proof.
  destruct r_robot as ((R0 & B0 & P0 & J0) & D). rewrite D. repeat (split; [first [assumption|lia|apply no_threshold; reflexivity]|]).
  repeat constructor.
Qed.
