(** The torques of the simulator application (C63). *)
From Coq Require Import List Arith ZArith Bool Lia Field.
From Verif Require Import Scalar Base Spatial Joint Body Kin InvDyn FwdDyn Opspace OpspaceAba Deriv Sim Ops Control Discrete Json App Specs SpecCache SpecKin SpecDyn SpecOps SpecControl SpecAppTask
  TreeProofs JointProofs CacheProofs CacheOps KinProofs WorldProofs BigSum DynProofs DynApi OpsCache OpsApi OpsAlg OpsTask ControlProofs.
Import ListNotations.

Section Gen.
Context {S : Scal} {AC : AddComm S} {ES : EqSound S}.
Local Open Scope k_scope.
Variable solve : list (list K) -> list K -> list K.
Variable pinv : list (list K) -> K -> list (list K) * bool.
Variable pd_pos : v3 -> v3 -> list K -> K * K -> list K.
Variable pd_ori : m3 -> m3 -> list K -> K * K -> list K.
Variable pd_joint : list K -> list K -> list K -> K * K -> list K.
Local Notation on := (on solve pinv).

Lemma asked ab0 ab q ab' x : on ab0 ab0 -> on ab0 ab -> ask solve pinv q ab = Ok (ab', x) -> plain q ->
  on ab0 ab' /\ outcome (ask solve pinv q ab0) = Ok x.
Proof. apply on_out. Qed.
Lemma plain_none q : thresholds q = [] -> pose_query q = true \/ jacobian_query q = true \/ dynamics_query q = true \/ task_query q = true -> @plain S q.
Proof. intros E H. split; [rewrite E; intros x []|exact H]. Qed.
Lemma app_measured t qd xd Rd h ab ab' tau x Q : reached solve pinv h ab -> base_fixed false h = true -> one_threshold 0 h ->
  app_control solve pinv pd_pos pd_ori pd_joint t qd xd Rd ab = Ok (ab', (tau, x, Q)) ->
  exists gx gR gq e, t_pos t = Some gx /\ t_ori t = Some gR /\ t_joint t = Some gq /\
    measured solve pinv (main_acc pd_pos pd_ori gx gR xd Rd) (fun _ => pd_joint (ab_q ab) qd (ab_dq ab) gq) ab e /\
    x = e_x e /\ Q = e_R e /\ tau = vadd (vadd (e_main e) (e_joint e)) (e_grav e) /\ on ab ab'.
Proof.
  intros R B OT E. pose proof (on_start solve pinv h ab R B OT) as O0. unfold app_control in E.
  destruct (q_Jacobian (-1) ee_offset ab) as [[a1 cols]| |] eqn:E1; try discriminate. cbn [bind] in E.
  destruct (asked ab ab (QJac (-1) ee_offset) a1 (AMots cols) O0 O0 ltac:(cbn [ask]; rewrite E1; reflexivity) ltac:(apply plain_none; auto)) as [O1 A1].
  destruct (q_Position (-1) ee_offset a1) as [[a2 x0]| |] eqn:E2; try discriminate. cbn [bind] in E.
  destruct (asked ab a1 (QPos (-1) ee_offset) a2 (AV3 x0) O0 O1 ltac:(cbn [ask]; rewrite E2; reflexivity) ltac:(apply plain_none; auto)) as [O2 A2].
  destruct (t_pos t) as [gx|] eqn:Gx; try discriminate. cbn [bind get_future] in E.
  destruct (q_Orientation (-1) a2) as [[a3 R0]| |] eqn:E3; try discriminate. cbn [bind] in E.
  destruct (asked ab a2 (QOri (-1)) a3 (AM3 R0) O0 O2 ltac:(cbn [ask]; rewrite E3; reflexivity) ltac:(apply plain_none; auto)) as [O3 A3].
  destruct (t_ori t) as [gR|] eqn:GR; try discriminate. cbn [bind get_future] in E.
  destruct (q_ops_IsSingular solve pinv _ 0 a3) as [[a4 s]| |] eqn:E4; try discriminate. cbn [bind] in E.
  destruct (asked ab a3 (QoSing (jac_rows cols) 0) a4 (ABool s) O0 O3 ltac:(cbn [ask]; rewrite E4; reflexivity) ltac:(apply plain_none; auto)) as [O4 A4].
  assert (D : forall a, on ab a -> ab_dof a = ab_dof ab /\ ab_dq a = ab_dq ab /\ ab_q a = ab_q ab) by (intros a (h' & c & _ & _ & _ & ->); auto).
  destruct (D a2 O2) as (_ & Dd2 & _). destruct (D a3 O3) as (_ & Dd3 & _). 
  assert (JR : jac_rows cols = task_rows None cols) by (rewrite <- rows_eq; reflexivity).
  rewrite Dd2, Dd3 in E. rewrite JR in *.
  assert (L3 : List.length (firstn 3 (task_rows None cols)) = 3%nat) by reflexivity. assert (L3' : List.length (skipn 3 (task_rows None cols)) = 3%nat) by reflexivity.
  rewrite (rates_lmulv (ab_dof ab) (ab_dq ab) _ 3 L3), (rates_lmulv (ab_dof ab) (ab_dq ab) _ 3 L3') in E.
  set (J := task_rows None cols) in *. set (dx := map (rate (ab_dof ab) (ab_dq ab)) (firstn 3 J)) in *. set (w := map (rate (ab_dof ab) (ab_dq ab)) (skipn 3 J)) in *.
  set (rows := if s then firstn 3 J else J). set (acc := if s then pd_pos x0 xd dx gx else pd_pos x0 xd dx gx ++ pd_ori R0 Rd w gR).
  assert (E5 : exists a5 N t1, q_ops_InverseDynamics solve pinv rows acc (Some []) no_force true ops_default a4 = Ok (a5, (N, t1)) /\
    bind (get_future (t_joint t)) (fun g => bind (q_ops_InverseDynamics solve pinv (lid (ab_dof ab)) (pd_joint (ab_q a5) qd (ab_dq a5) g) N no_force true ops_default a5) (fun '(ab, (_, t)) =>
      bind (q_Gravity ab) (fun '(ab, G) => Ok (ab, (vadd (vadd t1 t) G, x0, R0))))) = Ok (ab', (tau, x, Q))).
  { subst rows acc. destruct s.
    - destruct (q_ops_InverseDynamics solve pinv (firstn 3 J) _ (Some []) no_force true ops_default a4) as [[a5 [N t1]]| |]; try discriminate. exists a5, N, t1. auto.
    - destruct (q_ops_InverseDynamics solve pinv J _ (Some []) no_force true ops_default a4) as [[a5 [N t1]]| |]; try discriminate. exists a5, N, t1. auto. }
  clear E. destruct E5 as (a5 & N & t1 & E5 & E).
  assert (PI : forall J d M, @plain S (QoID J d M no_force true ops_default)) by (intros; split; [intros y [H|[]]; auto|auto]).
  destruct (asked ab a4 (QoID rows acc (Some []) no_force true ops_default) a5 (ANull N t1) O0 O4 ltac:(cbn [ask]; rewrite E5; reflexivity) (PI _ _ _)) as [O5 A5].
  destruct (t_joint t) as [gq|] eqn:Gq; try discriminate. cbn [bind get_future] in E. destruct (D a5 O5) as (_ & Dd5 & Dq5). rewrite Dd5, Dq5 in E.
  destruct (q_ops_InverseDynamics solve pinv (lid (ab_dof ab)) _ N no_force true ops_default a5) as [[a6 [N6 t2]]| |] eqn:E6; try discriminate. cbn [bind] in E.
  destruct (asked ab a5 (QoID (lid (ab_dof ab)) (pd_joint (ab_q ab) qd (ab_dq ab) gq) N no_force true ops_default) a6 (ANull N6 t2) O0 O5 ltac:(cbn [ask]; rewrite E6; reflexivity) (PI _ _ _)) as [O6 A6].
  destruct (q_Gravity a6) as [[a7 G]| |] eqn:E7; try discriminate. cbn [bind] in E.
  destruct (asked ab a6 QGrav a7 (AVec G) O0 O6 ltac:(cbn [ask]; rewrite E7; reflexivity) ltac:(apply plain_none; auto)) as [O7 A7].
  inversion E; subst. exists gx, gR, gq, (Measure J x R0 dx w s N t1 t2 G) || exists gx, gR, gq, (Measure J x Q dx w s N t1 t2 G).
  repeat (split; [reflexivity|]). split; [|repeat (split; [reflexivity|]); auto].
  constructor; cbn [e_J e_x e_R e_dx e_w e_sing e_N e_main e_joint e_grav]; auto; [exists cols; split; [exact A1|reflexivity]|exists N6; exact A6].
Qed.
End Gen.

Section Laws.
Context {S : Scal} {L : ScalLaws S} {PL : PosLaws S} {ES : EqSound S}.
Add Field kfa : (@kfield S L).
Local Open Scope k_scope.
Variable solve : list (list K) -> list K -> list K.
Variable pinv : list (list K) -> K -> list (list K) * bool.
Variable pd_pos : v3 -> v3 -> list K -> K * K -> list K.
Variable pd_ori : m3 -> m3 -> list K -> K * K -> list K.
Variable pd_joint : list K -> list K -> list K -> K * K -> list K.
Lemma measured_lengths h acc ddq ab e : reached solve pinv h ab -> base_fixed false h = true -> measured solve pinv acc ddq ab e ->
  List.length (e_main e) = ab_dof ab /\ List.length (e_joint e) = ab_dof ab /\ List.length (e_grav e) = ab_dof ab /\ exists N, e_N e = Some N.
Proof.
  intros R B M. assert (AC : AddComm S) by apply laws_comm. destruct (oid_length _ _ _ _ _ _ _ _ _ _ _ (ms_main _ _ _ _ _ _ M)) as [L1 [N' EN]]. destruct (ms_joint _ _ _ _ _ _ M) as [N2 RJ]. rewrite EN in RJ.
  destruct (oid_length _ _ _ _ _ _ _ _ _ _ _ RJ) as [L2 _]. repeat split; auto; [|eauto]. pose proof (ms_grav _ _ _ _ _ _ M) as X.
  destruct (reached_wfc solve pinv h ab R B) as [T W]. cbn [ask] in X. rewrite outcome_wrap, (out_Grav ab T W) in X. inversion X. apply vec_length.
Qed.
Lemma c63_task acc ddq0 e h ab A Li tau : reached solve pinv h ab -> base_fixed false h = true -> one_threshold 0 h -> proper ab ->
  outcome (ask solve pinv QInertia ab) = Ok (AMat A) -> solver_ok solve (ab_dof ab) A ->
  measured solve pinv acc ddq0 ab e ->
  outcome (ask solve pinv (QoLinv (main_rows e)) ab) = Ok (AMat Li) -> inverse_of (List.length (main_rows e)) Li (fst (pinv Li 0)) ->
  tau = vadd (vadd (e_main e) (e_joint e)) (e_grav e) ->
  forall st, exists ddq, outcome (ask solve pinv (QFD tau (fun _ => None) (IdOpts true false false st)) ab) = Ok (AVec ddq) /\
    List.length ddq = ab_dof ab /\ List.length (acc e) = List.length (main_rows e) /\
    forall i, (i < List.length (main_rows e))%nat -> row_times (ab_dof ab) (main_rows e) ddq i = coef (acc e) i.
Proof.
  intros R B OT P EA SO RD EL IV Et st. assert (AC : AddComm S) by apply laws_comm. destruct (reached_wfc solve pinv h ab R B) as [T W].
  destruct (measured_lengths _ _ _ _ _ R B RD) as (L1 & L2 & L3 & N1 & EN).
  pose proof (ms_main _ _ _ _ _ _ RD) as M. rewrite EN in M.
  destruct (ms_joint _ _ _ _ _ _ RD) as [N2 MJ]. rewrite EN in MJ.
  set (J := main_rows e) in *. set (m := List.length J) in *. set (n := ab_dof ab) in *.
  pose proof (reached_wop solve pinv None h ab R B (oone_none h)) as O0. pose proof (reached_wop solve pinv (Some 0) h ab R B (oone_some 0 h OT)) as O.
  assert (HJ : sized m n J).
  { pose proof EL as X. cbn [ask] in X. rewrite outcome_wrap, (out_oLinv solve pinv ab T W O0) in X. destruct (sh ab J) eqn:EJ; [|discriminate]. apply shape_sized, EJ. }
  assert (Hd : List.length (acc e) = m).
  { pose proof M as X. cbn [ask] in X. rewrite outcome_wrap, (out_oID solve pinv ab T W 0 O) in X by auto. unfold oid_pre in X. apply Nat.eqb_eq.
    destruct (Nat.eqb _ _) eqn:EE in X; [exact EE|discriminate]. }
  destruct (c36_top solve pinv h ab 0 J (acc e) (fun _ => None) true (OpsOpts false false false 0 (klit 1 100) 0) N1 (e_main e) A Li m R B OT P EA SO HJ Hd EL IV
    eq_refl eq_refl eq_refl klt_00 ltac:(auto) M) as [TH X].
  assert (L12 : List.length (vadd (e_main e) (e_joint e)) = n) by (apply vadd_length; auto).
  destruct (X (vadd (e_main e) (e_joint e)) ab L12) with (st := st) as (ddq & E1 & E2 & E3); auto.
  - destruct (Nat.eq_dec n 0) as [Z|NZ]; [exists (fun _ => 0); intros i Hi; fold n in Hi; lia|].
    destruct (out_ask solve pinv _ _ _ MJ) as [a2 A2].
    destruct (oid_length solve pinv _ _ _ _ _ _ _ _ _ MJ) as [_ [N2' EN2]]. subst N2.
    assert (CT : control solve pinv [Task (identity n) (ddq0 e) (fun _ => None) true (OpsOpts false false false 0 (klit 1 100) 0)] N1 (e_main e) ab =
      Some (a2, map (fun i => coef (e_main e) i + coef (e_joint e) i) (seq 0 n))) by (cbn [control SpecOps.t_J t_ddx t_fe t_fe_empty t_o]; rewrite A2; reflexivity).
    destruct (lower_control solve pinv n (n1 solve pinv ab J m 0) ltac:(lia) _ N1 (e_main e) ab a2 _ (e_main e) eq_refl TH ltac:(exists (fun _ => 0); intros; rewrite (ksum_zero n) by (intros; ring); ring) CT) as [y Hy].
    exists y. intros i Hi. etransitivity; [|exact (Hy i Hi)]. rewrite (coef_vadd n) by auto. change (map (fun i => coef (e_main e) i + coef (e_joint e) i) (seq 0 n)) with (vec n (fun i => coef (e_main e) i + coef (e_joint e) i)).
    rewrite qk_vec by auto. reflexivity.
  - destruct W as (c & Ec & _). exists c. destruct ab. cbn in *. subst. reflexivity.
  - exists ddq. split; [|auto]. rewrite <- E1. subst tau. pose proof (ms_grav _ _ _ _ _ _ RD) as GR.
    cbn [ask] in GR |- *. rewrite outcome_wrap, (out_Grav ab T W) in GR. inversion GR as [GE]. fold n in GE. fold n in GR.
    rewrite !outcome_wrap, !(out_FD solve ab T W) by auto. fold n. rewrite !(vadd_length n) by (auto; apply vec_length). rewrite Nat.eqb_refl.
    set (t := vadd (e_main e) (e_joint e)) in *.
    assert (V : vec n (fd_rhs ab (vadd t (vec n (Gv ab))) (fun _ => None) (IdOpts true false false st)) = vec n (fd_rhs ab t (fun _ => None) (IdOpts false false false st))).
    { apply vec_ext. intros i Hi. unfold fd_rhs. cbn [o_fric o_cc o_grav]. rewrite (coef_vadd n) by (auto; apply vec_length). rewrite qk_vec by auto. ring. }
    rewrite V. reflexivity.
Qed.
End Laws.
