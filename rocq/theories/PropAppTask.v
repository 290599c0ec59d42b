(** C63: the torques of the simulator application *)
From Coq Require Import List Arith ZArith Bool String Ascii QArith Qcanon Lia.
From Verif Require Import Scalar Base Spatial Joint Body Kin InvDyn FwdDyn Opspace OpspaceAba Deriv Sim Ops Control Discrete Json App Instances Specs SpecCache SpecKin SpecDyn SpecOps SpecControl SpecDiscrete SpecApp SpecAppTask Samples Checks
  BigSum DynApi OpsTask ControlProofs DiscreteSamples AppTask AppTorque PropControl AppSamples.
Import ListNotations.
Local Open Scope nat_scope.

(** Torques.  However long the loop has run, an iteration publishes the position and the
    orientation of the end effector, and the sum of the torques of the main task, of the
    posture task in its nullspace, and of gravity; each is the library's answer on the
    robot as it is, for the control laws applied to the goals of the application and to
    the gains read from Redis. *)
Theorem C63_torque : forall {S : Scal} {L : ScalLaws S} {ES : EqSound S} solve pinv log6 dlog6 norm pd_pos pd_ori pd_joint h s ts fs s1 t s2 f,
  reached solve pinv h (a_ab s) -> base_fixed false h = true -> one_threshold k0 h ->
  app_loop solve pinv log6 dlog6 norm pd_pos pd_ori pd_joint ts s = Ok (fs, Some s1) ->
  app_step solve pinv log6 dlog6 norm pd_pos pd_ori pd_joint t s1 = Ok (s2, f) ->
  exists gx gR gq e, t_pos t = Some gx /\ t_ori t = Some gR /\ t_joint t = Some gq /\
    measured solve pinv (main_acc pd_pos pd_ori gx gR (a_x s1) (a_R s1)) (fun _ => pd_joint (ab_q (a_ab s1)) (a_q s1) (ab_dq (a_ab s1)) gq) (a_ab s1) e /\
    f_x f = e_x e /\ f_R f = e_R e /\ List.length (f_tau f) = ab_dof (a_ab s1) /\
    forall i, i < ab_dof (a_ab s1) -> coef (f_tau f) i = kadd (kadd (coef (e_main e) i) (coef (e_joint e) i)) (coef (e_grav e) i).
Proof. exact @c63_torque. Qed.
Print Assumptions C63_torque.

(** They produce the commanded acceleration of the end effector, whatever the posture
    task asks for: all six components, or the linear ones at a singularity. *)
Theorem C63_commanded : forall {S : Scal} {L : ScalLaws S} {PL : PosLaws S} {ES : EqSound S} solve pinv log6 dlog6 norm pd_pos pd_ori pd_joint h s ts fs s1 t s2 f A,
  reached solve pinv h (a_ab s) -> base_fixed false h = true -> one_threshold k0 h ->
  app_loop solve pinv log6 dlog6 norm pd_pos pd_ori pd_joint ts s = Ok (fs, Some s1) ->
  app_step solve pinv log6 dlog6 norm pd_pos pd_ori pd_joint t s1 = Ok (s2, f) -> proper (a_ab s1) ->
  outcome (ask solve pinv QInertia (a_ab s1)) = Ok (AMat A) -> solver_ok solve (ab_dof (a_ab s1)) A ->
  exists gx gR gq e, t_pos t = Some gx /\ t_ori t = Some gR /\ t_joint t = Some gq /\
    measured solve pinv (main_acc pd_pos pd_ori gx gR (a_x s1) (a_R s1)) (fun _ => pd_joint (ab_q (a_ab s1)) (a_q s1) (ab_dq (a_ab s1)) gq) (a_ab s1) e /\
    forall Li, outcome (ask solve pinv (QoLinv (main_rows e)) (a_ab s1)) = Ok (AMat Li) -> inverse_of (List.length (main_rows e)) Li (fst (pinv Li k0)) ->
    let want := main_acc pd_pos pd_ori gx gR (a_x s1) (a_R s1) e in
    forall eps, exists ddq, outcome (ask solve pinv (QFD (f_tau f) (fun _ => None) (IdOpts true false false eps)) (a_ab s1)) = Ok (AVec ddq) /\
      List.length ddq = ab_dof (a_ab s1) /\ List.length want = List.length (main_rows e) /\
      forall i, i < List.length (main_rows e) -> row_times (ab_dof (a_ab s1)) (main_rows e) ddq i = coef want i.
Proof. exact @c63_commanded. Qed.
Print Assumptions C63_commanded.

(** The crane of PropApp.v, after an iteration in which the user held it and had "d"
    down; its hypotheses are there.  Its main task is the position alone. *)
Definition crane_home : @app QcScal := match app_start [qz 1; qz 2; qz 3] crane with Ok s => s | _ => App crane [] v3zero m3id end.
Definition crane_on : @app QcScal :=
  match crane_run [tick_of "spatial_dyn::model::r" "d"] with Ok (_, Some s) => s | _ => App crane [] v3zero m3id end.
Definition crane_ask (q : @query QcScal) : res (@answer QcScal) := outcome (ask solve_i pinv_s q (a_ab crane_on)).
Definition crane_cols : list (@motion QcScal) := match crane_ask (QJac (-1) tip) with Ok (AMots l) => l | _ => [] end.
Example C63_torque_example :
  (exists h, reached solve_i pinv_s h (a_ab crane_home) /\ base_fixed false h = true /\ one_threshold k0 h) /\
  (exists fs, app_loop solve_i pinv_s log_s dlog_s sumsq pd_p pd_o pd_j [tick_of "spatial_dyn::model::r" "d"] crane_home = Ok (fs, Some crane_on)) /\
  (exists s2 f, app_step solve_i pinv_s log_s dlog_s sumsq pd_p pd_o pd_j (tick_of "" "") crane_on = Ok (s2, f) /\ forallb (fun x => keq x k0) (f_tau f) = false) /\
  proper (a_ab crane_on) /\ ab_dof (a_ab crane_on) = 3 /\
  (exists A, crane_ask QInertia = Ok (AMat A) /\ solver_ok solve_i 3 A) /\
  crane_ask (QJac (-1) tip) = Ok (AMots crane_cols) /\ crane_ask (QoSing (task_rows None crane_cols) k0) = Ok (ABool true) /\
  (exists Li, crane_ask (QoLinv (firstn 3 (task_rows None crane_cols))) = Ok (AMat Li) /\ inverse_of 3 Li (fst (pinv_s Li k0))).
Proof.
  split.
  { exists (gantry ++ [OSetQ [qz 1; qz 2; qz 3]; OAsk (QPos (-1) tip); OAsk (QOri (-1))]). split; [|split; [reflexivity|]].
    - exists "r"%string, (junk (qz 7)).
      assert (M : match app_start [qz 1; qz 2; qz 3] crane with Ok _ => true | _ => false end = true) by (vm_compute; reflexivity).
      assert (N : is_some (run solve_i pinv_s gantry (body_new "r" (junk (qz 7)))) = true) by (vm_compute; reflexivity).
      rewrite RealEnergy.run_app. unfold crane_home, app_start, crane, after in *.
      destruct (run solve_i pinv_s gantry (body_new "r" (junk (qz 7)))) as [a|]; [|discriminate N]. cbn [run step]. unfold tip.
      change (@ee_offset QcScal) with (@V3 QcScal k0 k0 (klit 3 100)) in *. destruct (set_q _ a) as [a1 []|?|]; cbn [settled called bind] in *; try discriminate M.
      cbn [ask]. destruct (q_Position _ _ a1) as [[a2 x]| |]; cbn [wrap bind] in *; try discriminate M. destruct (q_Orientation _ a2) as [[a3 Q]| |]; cbn [wrap bind] in *; try discriminate M. reflexivity.
    - intros q y H. apply in_app_iff in H. destruct H as [H|[H|[H|[H|[]]]]]; try discriminate H; [|inversion H; subst; intros []..].
      destruct H as [H|[H|[H|[H|[H|[]]]]]]; try discriminate H; inversion H; subst; intros []. }
  split.
  { assert (M : match crane_run [tick_of "spatial_dyn::model::r" "d"] with Ok (_, Some _) => true | _ => false end = true) by (vm_compute; reflexivity).
    unfold crane_on. unfold crane_run in *. unfold crane_home. destruct (app_start _ crane) as [s| |]; try discriminate.
    destruct (app_loop _ _ _ _ _ _ _ _ _ s) as [[fs [s1|]]| |]; try discriminate. exists fs. reflexivity. }
  split.
  { assert (M : match app_step solve_i pinv_s log_s dlog_s sumsq pd_p pd_o pd_j (tick_of "" "") crane_on with Ok (_, f) => negb (forallb (fun x => keq x k0) (f_tau f)) | _ => false end = true) by (vm_compute; reflexivity).
    destruct (app_step _ _ _ _ _ _ _ _ _ crane_on) as [[s2 f]| |]; try discriminate. exists s2, f. split; [reflexivity|]. apply negb_true_iff. exact M. }
  split; [apply properb_ok; vm_compute; reflexivity|]. split; [vm_compute; reflexivity|]. split; [|split; [|split]].
  - pose (r := crane_ask QInertia). exists (answer_mat r). fold r.
    assert (I : inverseb 3 (answer_mat r) (inv0 (answer_mat r)) = true) by (vm_compute; reflexivity).
    assert (N : List.length (answer_mat r) = 3%nat) by (vm_compute; reflexivity).
    assert (M : match r with Ok (AMat _) => true | _ => false end = true) by (vm_compute; reflexivity).
    pose proof (inverseb_ok _ _ _ I) as H. clear I. clearbody r. split; [apply answer_mat_ok; exact M|].
    apply (solver_inverse inv0); [auto|]. intros i j Hi Hj. exact (proj1 (H i j Hi Hj)).
  - assert (M : match crane_ask (QJac (-1) tip) with Ok (AMots _) => true | _ => false end = true) by (vm_compute; reflexivity).
    unfold crane_cols. destruct (crane_ask (QJac (-1) tip)) as [[]| |]; try discriminate. reflexivity.
  - assert (M : match crane_ask (QoSing (task_rows None crane_cols) k0) with Ok (ABool b) => b | _ => false end = true) by (vm_compute; reflexivity).
    destruct (crane_ask (QoSing (task_rows None crane_cols) k0)) as [[]| |]; try discriminate. subst. reflexivity.
  - pose (r := crane_ask (QoLinv (firstn 3 (task_rows None crane_cols)))). exists (answer_mat r). fold r. split; [apply answer_mat_ok; vm_compute; reflexivity|apply inverseb_ok; vm_compute; reflexivity].
Qed.
