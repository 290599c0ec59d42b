(** C63: the simulator application *)
From Coq Require Import List Arith ZArith Bool String Ascii QArith Qcanon Reals Lia.
From Verif Require Import Scalar Base Spatial SpecGeo Joint Body Kin InvDyn FwdDyn Opspace OpspaceAba Deriv Sim Ops Control Discrete Json App Instances Specs SpecCache SpecKin SpecDyn SpecReal SpecOps SpecControl SpecDiscrete SpecHold SpecApp Samples Checks
  BigSum DynApi OpsTask ControlProofs DiscreteSamples HoldProofs AppProofs AppLoop AppForce AppHold PropControl PropHold PropReal AppSamples.
Import ListNotations.
Local Open Scope nat_scope.

(** C63.  The application starts from any posture of the robot's size: its goal is where
    the end-effector point and the last link then are. *)
Theorem C63_start : forall {S : Scal} {L : ScalLaws S} {ES : EqSound S} solve pinv h ab home,
  reached solve pinv h ab -> base_fixed false h = true -> List.length home = ab_dof ab -> 0 < ab_dof ab ->
  exists s, app_start home ab = Ok s /\
    reached solve pinv (h ++ [OSetQ home; OAsk (QPos (-1) (V3 k0 k0 (klit 3 100))); OAsk (QOri (-1))]) (a_ab s) /\
    a_q s = home /\ ab_q (a_ab s) = home /\ ab_dq (a_ab s) = ab_dq ab /\
    Position_q ab home (-1) (V3 k0 k0 (klit 3 100)) = Ok (a_x s) /\ Orientation_q ab home (-1) = Ok (a_R s).
Proof. exact @c63_start. Qed.
Print Assumptions C63_start.
Example C63_crane : reached solve_i pinv_s gantry crane /\ base_fixed false gantry = true /\ one_threshold k0 gantry /\ ab_dof crane = 3 /\ ab_name crane = "r"%string.
Proof.
  split; [apply after_reached; vm_compute; reflexivity|]. split; [reflexivity|]. split; [|split; vm_compute; reflexivity].
  intros q y [H|[H|[H|[H|[H|[]]]]]]; try discriminate H; inversion H; subst; intros [].
Qed.

(** Freshness.  However long the loop has run, with whatever the user did, the torques
    and the external forces of the next iteration are those of a robot with the same
    observable state and a newly allocated cache. *)
Theorem C63_fresh : forall {S : Scal} {L : ScalLaws S} {ES : EqSound S} solve pinv log6 dlog6 norm pd_pos pd_ori pd_joint h s ts fs s' t mem,
  reached solve pinv h (a_ab s) -> base_fixed false h = true -> one_threshold k0 h ->
  app_loop solve pinv log6 dlog6 norm pd_pos pd_ori pd_joint ts s = Ok (fs, Some s') ->
  outcome (app_control solve pinv pd_pos pd_ori pd_joint t (a_q s') (a_x s') (a_R s') (a_ab s')) =
    outcome (app_control solve pinv pd_pos pd_ori pd_joint t (a_q s') (a_x s') (a_R s') (cold (a_ab s') mem)) /\
  forall i, outcome (compute_external_forces i (a_ab s')) = outcome (compute_external_forces i (cold (a_ab s') mem)).
Proof. exact @c63_fresh. Qed.
Print Assumptions C63_fresh.
(** Three iterations: the robot held and "d" down, nothing, the robot held and "w" down;
    the integrator converged, the goal, the positions. *)
Notation held := "spatial_dyn::model::r"%string.
Example C63_run : shown (crane_run [tick_of held "d"; tick_of "" ""; tick_of held "w"]) =
  [(true, [(-9999, 10000); (3, 1); (603, 100)], [(127, 300); (1, 2); (-9, 50)]);
   (true, [(-9999, 10000); (3, 1); (603, 100)], [(-3539, 30000); (-447501, 500000); (-15637, 5000)]);
   (true, [(-9999, 10000); (30001, 10000); (603, 100)], [(-9552131, 9000000); (-35795067, 12500000); (-9905123, 1500000)])]%Z.
Proof. vm_compute. reflexivity. Qed.
Example C63_runs : match crane_run [tick_of held "d"; tick_of "" ""; tick_of held "w"] with Ok (_, Some _) => true | _ => false end = true.
Proof. vm_compute. reflexivity. Qed.

(** Motion.  With a constant time step, as long as the integrator converges, the
    configurations the application publishes obey the discrete Euler-Lagrange equations,
    whose left-hand side is that of C47, for the torques it publishes, the user's forces
    and gravity; the velocities are the central differences. *)
Theorem C63_motion : forall {S : Scal} {L : ScalLaws S} {ES : EqSound S} solve pinv log6 dlog6 norm pd_pos pd_ori pd_joint h s dt ts fs e mem,
  reached solve pinv h (a_ab s) -> base_fixed false h = true ->
  dt <> k0 -> keq dt dt = true -> (forall t, In t ts -> t_dt t = dt) ->
  app_loop solve pinv log6 dlog6 norm pd_pos pd_ori pd_joint ts s = Ok (fs, e) -> (forall f, In f fs -> f_done f = true) ->
  exists abs, map ab_q abs = map f_q fs /\ map ab_dq abs = map f_dq fs /\
    obeys log6 dlog6 norm dt mem (vmap2 (ab_dof (a_ab s)) (fun x v => ksub x (kmul dt v)) (ab_q (a_ab s)) (ab_dq (a_ab s))) (a_ab s) (legs_of fs) abs.
Proof. exact @c63_motion. Qed.
Print Assumptions C63_motion.

(** Mouse.  A held point is pulled towards the mouse with 100 N/m: the external torques
    are minus the Jacobian of the point's position, transposed, times that force. *)
Theorem C63_click : forall {S : Scal} {L : ScalLaws S} solve pinv h ab i k point mouse,
  reached solve pinv h ab -> base_fixed false h = true -> rigid_robot ab ->
  k < ab_dof ab -> (Z.of_nat (ab_dof ab) <= 2 ^ 31)%Z -> drags i ab (Z.of_nat k) point mouse ->
  exists p J fe E, Position_q ab (ab_q ab) (Z.of_nat k) point = Ok p /\ Jacobian_q ab (ab_q ab) (Z.of_nat k) point = Ok J /\
    outcome (compute_external_forces i ab) = Ok fe /\ outcome (ask solve pinv (QExt fe) ab) = Ok (AVec E) /\ List.length E = ab_dof ab /\
    forall j, j < ab_dof ab -> coef E j = kopp (kmul (klit 100 1) (v3dot (v3sub mouse p) (mlin (col J j)))).
Proof. exact @c63_click. Qed.
Print Assumptions C63_click.
Example C63_click_example : drags (message held "d" 2 (QV 1 0 0) (QV 5 0 (-3))) crane 2 (QV 1 0 0) (QV 5 0 (-3)) /\ 2 < ab_dof crane /\ (Z.of_nat (ab_dof crane) <= 2 ^ 31)%Z /\
  rigid_robot crane /\
  match outcome (compute_external_forces (message held "d" 2 (QV 1 0 0) (QV 5 0 (-3))) crane) with
  | Ok fe => fracs (outcome (ask solve_i pinv_s (QExt fe) crane)) <> map (fun _ => (0, 1)%Z) (seq 0 3)
  | _ => False
  end.
Proof.
  assert (D : ab_dof crane = 3) by (vm_compute; reflexivity).
  split; [apply message_drags; vm_compute; reflexivity|]. split; [rewrite D; lia|]. split; [rewrite D; lia|]. split; [apply pr_rigid; apply properb_ok; vm_compute; reflexivity|].
  vm_compute. discriminate.
Qed.
(** Over the reals it is a spring: the external torque of joint [j] is the derivative
    with respect to q_j of 50 times the squared distance from the point to the mouse. *)
Theorem C63_spring : forall solve pinv h (ab : @body RScal) i k point mouse j,
  reached solve pinv h ab -> base_fixed false h = true -> rigid_robot ab -> proper_joints ab ->
  k < ab_dof ab -> j < ab_dof ab -> (Z.of_nat (ab_dof ab) <= 2 ^ 31)%Z -> drags i ab (Z.of_nat k) point mouse ->
  exists P fe E, (forall x, Position_q ab (replaced (ab_q ab) j x) (Z.of_nat k) point = Ok (P x)) /\
    outcome (compute_external_forces i ab) = Ok fe /\ outcome (ask solve pinv (QExt fe) ab) = Ok (AVec E) /\
    derivable_pt_lim (fun x => stretch mouse (P x)) (@coef RScal (ab_q ab) j) (@coef RScal E j).
Proof. exact c63_spring. Qed.
Print Assumptions C63_spring.
Example C63_spring_example : exists i, reached solve0 pinv0 r_history r_ab /\ base_fixed false r_history = true /\ rigid_robot r_ab /\ proper_joints r_ab /\ ab_dof r_ab = 2 /\
  drags i r_ab (Z.of_nat 1) (@V3 RScal 1 0 0)%R (@V3 RScal 3 2 1)%R.
Proof.
  destruct r_robot as ((R0 & B0 & P0 & J0) & D). exists (message held "" 1 (@V3 RScal 1 0 0)%R (@V3 RScal 3 2 1)%R). split; [auto|]. split; [auto|]. split; [apply P0|]. split; [auto|]. split; [auto|]. apply message_drags. reflexivity.
Qed.
(** What is held elsewhere does not pull on the robot. *)
Theorem C63_elsewhere : forall {S : Scal} i (ab : body), elsewhere i ab -> outcome (compute_external_forces i ab) = Ok (fun _ => None).
Proof. exact @c63_elsewhere. Qed.
Print Assumptions C63_elsewhere.
Example C63_elsewhere_example : elsewhere (message "" "d" 2 (QV 1 0 0) (QV 5 0 (-3))) crane.
Proof. apply message_elsewhere. vm_compute. reflexivity. Qed.
(** Link -1 means the last link elsewhere, but here its force is on no link. *)
Theorem C63_minus_one : forall {S : Scal} {L : ScalLaws S} solve pinv h ab i point mouse,
  reached solve pinv h ab -> base_fixed false h = true -> 0 < ab_dof ab -> (Z.of_nat (ab_dof ab) < 2 ^ 64)%Z -> drags i ab (-1) point mouse ->
  exists fe, outcome (compute_external_forces i ab) = Ok fe /\ (forall k, k < ab_dof ab -> fe k = None) /\ fe (Z.to_nat (2 ^ 64 - 1)) <> None.
Proof. exact @c63_last. Qed.
Print Assumptions C63_minus_one.
Example C63_minus_one_example : drags (message held "" (-1) (QV 1 0 0) (QV 5 0 (-3))) crane (-1) (QV 1 0 0) (QV 5 0 (-3)).
Proof. apply message_drags. vm_compute. reflexivity. Qed.

(** Keys.  Each published goal is the goal at the start, moved by 0.1 mm for each
    iteration so far in which a key was down; nothing else moves the goals. *)
Theorem C63_keys : forall solve pinv log6 dlog6 norm pd_pos pd_ori pd_joint ts (s : @app RScal) fs e,
  app_loop solve pinv log6 dlog6 norm pd_pos pd_ori pd_joint ts s = Ok (fs, e) ->
  (forall k f, nth_error fs k = Some f -> f_goal f = keyed (a_x s) (firstn (Datatypes.S k) ts)) /\
  (forall s', e = Some s' -> List.length fs = List.length ts /\ a_x s' = keyed (a_x s) ts /\ a_q s' = a_q s /\ a_R s' = a_R s).
Proof. exact c63_keys. Qed.
Print Assumptions C63_keys.

(** Hold.  A robot started at rest, which nobody touches, stays exactly at its home: the
    loop runs through with any gains and any time steps other than zero, publishes the
    gravity torques each time, and the integrator always converges. *)
Theorem C63_hold : forall {S : Scal} {L : ScalLaws S} {PL : PosLaws S} {ES : EqSound S} solve pinv log6 dlog6 norm pd_pos pd_ori pd_joint h ab home s A G,
  reached solve pinv h ab -> base_fixed false h = true -> one_threshold k0 h -> proper ab -> at_rest ab ->
  List.length home = ab_dof ab -> 0 < ab_dof ab -> app_start home ab = Ok s ->
  outcome (ask solve pinv QInertia (a_ab s)) = Ok (AMat A) -> solver_ok solve (ab_dof ab) A -> injective (ab_dof ab) A ->
  outcome (ask solve pinv QGrav (a_ab s)) = Ok (AVec G) ->
  log6 iso_id = mzero -> klt (norm (repeat k0 (ab_dof ab))) (klit 1 100000000) = true ->
  (forall x g, pd_pos x x [k0; k0; k0] g = [k0; k0; k0]) -> (forall R g, pd_ori R R [k0; k0; k0] g = [k0; k0; k0]) ->
  (forall q g, List.length q = ab_dof ab -> pd_joint q q (repeat k0 (ab_dof ab)) g = repeat k0 (ab_dof ab)) ->
  forall ts, (forall t, In t ts -> undisturbed ab t /\ t_dt t <> k0 /\ keq (t_dt t) (t_dt t) = true) ->
  exists fs s', app_loop solve pinv log6 dlog6 norm pd_pos pd_ori pd_joint ts s = Ok (fs, Some s') /\ unmoved (a_ab s) (a_ab s') /\ List.length fs = List.length ts /\
    Forall (fun f => List.length (f_tau f) = ab_dof ab /\ (forall i, i < ab_dof ab -> coef (f_tau f) i = coef G i) /\
      f_goal f = a_x s /\ f_q f = home /\ f_dq f = ab_dq ab /\ f_x f = a_x s /\ f_R f = a_R s /\ f_done f = true) fs.
Proof. exact @c63_hold. Qed.
Print Assumptions C63_hold.
Definition bot_home : list (@K QcScal) := [qz 0; qz 2; qz 1; qz 0; qz 1; qz 0].
Definition bot_app : @app QcScal := match app_start bot_home bot with Ok s => s | _ => App bot [] v3zero m3id end.
Example C63_hold_example : app_start bot_home bot = Ok bot_app /\ List.length bot_home = ab_dof bot /\
  (exists A, outcome (ask solve_i pinv0 QInertia (a_ab bot_app)) = Ok (AMat A) /\ solver_ok solve_i 6 A /\ injective 6 A) /\
  (exists G, gravity_of (a_ab bot_app) = Ok (AVec G)) /\ fracs (gravity_of (a_ab bot_app)) <> map (fun _ => (0, 1)%Z) (seq 0 6) /\
  @log_r QcScal iso_id = mzero /\ klt (sumsq (repeat k0 6)) (klit 1 100000000) = true /\
  (forall x g, @pd_p QcScal x x [k0; k0; k0] g = [k0; k0; k0]) /\ (forall R g, @pd_o QcScal R R [k0; k0; k0] g = [k0; k0; k0]) /\
  (forall q g, List.length q = 6 -> @pd_j QcScal q q (repeat k0 6) g = repeat k0 6) /\
  undisturbed bot (tick_of "" "x") /\ t_dt (tick_of "" "x") <> k0 /\ keq (t_dt (tick_of "" "x")) (t_dt (tick_of "" "x")) = true.
Proof.
  assert (D : ab_dof bot = 6) by (vm_compute; reflexivity).
  split; [unfold bot_app; assert (M : match app_start bot_home bot with Ok _ => true | _ => false end = true) by (vm_compute; reflexivity); destruct (app_start bot_home bot); [reflexivity|discriminate..]|].
  split; [rewrite D; reflexivity|]. split; [|split; [|split; [|split; [exact log_r_id|split; [vm_compute; reflexivity|split; [exact pd_p_zero|split; [exact pd_o_zero|split; [exact (pd_j_zero 6)|]]]]]]]].
  - pose (r := outcome (ask solve_i pinv0 QInertia (a_ab bot_app))). exists (answer_mat r). fold r.
    assert (I : inverseb 6 (answer_mat r) (inv0 (answer_mat r)) = true) by (vm_compute; reflexivity).
    assert (N : List.length (answer_mat r) = 6%nat) by (vm_compute; reflexivity).
    assert (M : match r with Ok (AMat _) => true | _ => false end = true) by (vm_compute; reflexivity).
    pose proof (inverseb_ok _ _ _ I) as H. clear I. clearbody r. split; [apply answer_mat_ok; exact M|]. split.
    + apply (solver_inverse inv0); [auto|]. intros i j Hi Hj. exact (proj1 (H i j Hi Hj)).
    + apply (injective_inverse 6 _ (inv0 (answer_mat r))). intros i j Hi Hj. exact (proj2 (H i j Hi Hj)).
  - refine (vec_ex (gravity_of (a_ab bot_app)) _). vm_compute. reflexivity.
  - vm_compute. discriminate.
  - split; [|split; [vm_compute; discriminate|vm_compute; reflexivity]]. split; [discriminate|]. split; [discriminate|]. split; [discriminate|].
    eexists. split; [reflexivity|]. split; [apply message_elsewhere; vm_compute; reflexivity|]. split; [exists "x"%string; eexists; split; reflexivity|].
    intros c H. repeat destruct H as [<-|H]; try reflexivity. destruct H.
Qed.
