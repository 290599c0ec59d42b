(** The torques of the simulator application, in its loop (C63). *)
From Coq Require Import List Arith ZArith Bool String Lia Field.
From Verif Require Import Scalar Base Spatial Joint Body Kin InvDyn FwdDyn Opspace OpspaceAba Deriv Sim Ops Control Discrete Json App Specs SpecCache SpecKin SpecDyn SpecOps SpecControl SpecDiscrete SpecAppTask
  TreeProofs JointProofs CacheProofs CacheOps KinProofs WorldProofs BigSum DynProofs DynApi OpsCache OpsApi OpsAlg OpsTask ControlProofs TwinProofs RealEnergy AppProofs AppLoop AppTask.
Import ListNotations.

Section Loop.
Context {S : Scal} {L : ScalLaws S} {PL : PosLaws S} {ES : EqSound S}.
Local Open Scope k_scope.
Variable solve : list (list K) -> list K -> list K.
Variable pinv : list (list K) -> K -> list (list K) * bool.
Variable log6 : iso -> motion.
Variable dlog6 : iso -> i6.
Variable norm : list K -> K.
Variable pd_pos : v3 -> v3 -> list K -> K * K -> list K.
Variable pd_ori : m3 -> m3 -> list K -> K * K -> list K.
Variable pd_joint : list K -> list K -> list K -> K * K -> list K.
#[local] Instance comm_tq : AddComm S := laws_comm.
Local Notation good := (good solve pinv (fun _ => True)).
Local Notation DI := (q_DiscreteIntegrate solve log6 dlog6 norm).
Local Notation control := (app_control solve pinv pd_pos pd_ori pd_joint).
Local Notation app_step := (app_step solve pinv log6 dlog6 norm pd_pos pd_ori pd_joint).
Local Notation app_loop := (app_loop solve pinv log6 dlog6 norm pd_pos pd_ori pd_joint).

(** A robot of the application differs in its cache only from one of a history. *)
Definition sibling (a : body) : Prop := good a /\
  exists h b c, reached solve pinv h b /\ base_fixed false h = true /\ one_threshold 0 h /\ a = set_cache b (Some c).
Lemma sibling_reached h ab : reached solve pinv h ab -> base_fixed false h = true -> one_threshold 0 h -> sibling ab.
Proof.
  intros R B OT. split; [eapply good_reached; eauto|]. destruct (on_start solve pinv h ab R B OT) as (h' & c & X1 & X2 & X3 & X4). exists h', ab, c. auto.
Qed.
Lemma fixed_sets h q dq : forall b, base_fixed b (h ++ [OSetQ q; OSetDq dq]) = base_fixed b h.
Proof. induction h as [|o h IH]; intros b; [reflexivity|]. destruct o; cbn; rewrite ?IH; auto. Qed.
Lemma set_q_twin q (a b a' : body) c : a = set_cache b (Some c) -> set_q q a = Ret a' tt -> tree_ok b ->
  exists b' c', set_q q b = Ret b' tt /\ a' = set_cache b' (Some c') /\ tree_ok b'.
Proof.
  intros -> E T. assert (X : exists b', set_q q b = Ret b' tt /\ exists c', a' = set_cache b' (Some c')).
  { unfold set_q in *. cbn [ab_dof ab_q set_cache] in E. destruct (negb _); [discriminate|]. destruct (negb _); [discriminate|].
    destruct (veqb _ _); inversion E; subst; eexists; (split; [reflexivity|]); eexists; reflexivity. }
  destruct X as (b' & E1 & c' & E2). exists b', c'. split; [auto|]. split; [auto|]. eapply tree_set_q; eauto.
Qed.
Lemma set_dq_twin q (a b a' : body) c : a = set_cache b (Some c) -> set_dq q a = Ret a' tt -> tree_ok b ->
  exists b' c', set_dq q b = Ret b' tt /\ a' = set_cache b' (Some c') /\ tree_ok b'.
Proof.
  intros -> E T. assert (X : exists b', set_dq q b = Ret b' tt /\ exists c', a' = set_cache b' (Some c')).
  { unfold set_dq in *. cbn [ab_dof ab_dq set_cache] in E. destruct (negb _); [discriminate|]. destruct (negb _); [discriminate|].
    destruct (veqb _ _); inversion E; subst; eexists; (split; [reflexivity|]); eexists; reflexivity. }
  destruct X as (b' & E1 & c' & E2). exists b', c'. split; [auto|]. split; [auto|]. eapply tree_set_dq; eauto.
Qed.
Lemma sibling_step t s s' f : sibling (a_ab s) -> app_step t s = Ok (s', f) -> sibling (a_ab s').
Proof.
  intros (G & h & b & c & R & B & OT & Eb) E. split; [eapply good_step; eauto|].
  rewrite step_exec in E. destruct (exec solve pinv _ _) as [[a1 [[[[tau x] Q] fe] key]]| |] eqn:E1; try discriminate. cbn [bind] in E.
  destruct (exec_frame solve pinv _ _ _ _ E1 ltac:(rewrite Eb; discriminate)) as [c1 Ea].
  destruct (DI tau _ _ _ _ _ a1) as [[a2 d]| |] eqn:E2; try discriminate. cbn [bind] in E. inversion E; subst s' f; clear E. cbn [a_ab].
  clear E1. unfold q_DiscreteIntegrate in E2. destruct (Nat.eqb _ _); [|discriminate]. destruct (ab_cache a1) as [c2|]; [|discriminate].
  destruct (forward_dynamics _ _ _ _ _ _) as [c3 y]. destruct (newton _ _ _ _ _ _ _ _ _ _ _ _ _) as [[c4 qn] dn].
  unfold bind at 1 in E2. destruct (set_q qn _) as [a3 []|?|] eqn:Sq; cbn [called] in E2; try discriminate.
  unfold bind at 1 in E2. destruct (set_dq _ a3) as [a4 []|?|] eqn:Sd in E2; cbn [called] in E2; try discriminate.
  destruct (ab_cache a4) as [c5|]; [|discriminate]. inversion E2; subst a2 d; clear E2.
  destruct (reached_wfc solve pinv h b R B) as [T _].
  destruct (set_q_twin qn (set_cache a1 (Some c4)) b a3 c4 ltac:(rewrite Ea, Eb; reflexivity) Sq T) as (b1 & d1 & F1 & Ea3 & T1).
  match type of Sd with set_dq ?v _ = _ => set (vn := v) in Sd end.
  destruct (set_dq_twin vn _ b1 _ _ Ea3 Sd T1) as (b2 & d2 & F2 & Ea4 & _).
  eexists (h ++ [OSetQ qn; OSetDq vn]), b2, _. split; [|split; [|split; [|rewrite Ea4; reflexivity]]].
  - destruct R as (name & mem & R). exists name, mem. rewrite run_app, R. cbn [run step]. rewrite F1. cbn [settled]. rewrite F2. reflexivity.
  - rewrite fixed_sets. exact B.
  - intros q' z H. apply in_app_iff in H. destruct H as [H|[H|[H|[]]]]; [apply OT; auto|discriminate H|discriminate H].
Qed.
Lemma sibling_loop ts : forall s fs s', sibling (a_ab s) -> app_loop ts s = Ok (fs, Some s') -> sibling (a_ab s').
Proof.
  induction ts as [|t ts IH]; intros s fs s' G E; cbn [App.app_loop] in E; [inversion E; subst; auto|].
  destruct (app_step t s) as [[s1 f]| |] eqn:E1; try discriminate. destruct (app_loop ts s1) as [[fs1 e]| |] eqn:E2; try discriminate. cbn [bind] in E. inversion E; subst; clear E.
  eapply IH; [|exact E2]. eapply sibling_step; eauto.
Qed.

(** Answers are the same on both. *)
Lemma sibling_ask a h b c q : good a -> reached solve pinv h b -> base_fixed false h = true -> one_threshold 0 h -> a = set_cache b (Some c) -> plain q ->
  outcome (ask solve pinv q a) = outcome (ask solve pinv q b).
Proof.
  intros G R B OT E P. rewrite (good_fresh solve pinv (fun _ => True) a q c G P). replace (cold a c) with (cold b c) by (subst; reflexivity).
  symmetry. apply (on_cold solve pinv b b q c); [eapply on_start; eauto|exact P].
Qed.
Lemma plain_id J d M : @plain S (QoID J d M (fun _ => None) true (OpsOpts false false false 0 (klit 1 100) 0)).
Proof. split; [intros y [H|[]]; auto|auto]. Qed.
Lemma measured_same acc ddq (a b : body) e : ab_dof a = ab_dof b -> ab_dq a = ab_dq b ->
  (forall q, plain q -> outcome (ask solve pinv q a) = outcome (ask solve pinv q b)) ->
  measured solve pinv acc ddq b e -> measured solve pinv acc ddq a e.
Proof.
  intros D1 D2 H M. destruct M as [MJ Mx MR Md Mw Ms Mm Mj Mg].
  constructor; rewrite ?D1, ?D2; auto.
  - destruct MJ as (cols & E1 & E2). exists cols. split; [|auto]. rewrite H; [exact E1|apply plain_none; auto].
  - rewrite H; [exact Mx|apply plain_none; auto].
  - rewrite H; [exact MR|apply plain_none; auto].
  - rewrite H; [exact Ms|apply plain_none; auto].
  - rewrite H; [exact Mm|apply plain_id].
  - destruct Mj as [N' Mj]. exists N'. rewrite H; [exact Mj|apply plain_id].
  - rewrite H; [exact Mg|apply plain_none; auto].
Qed.
Lemma step_control t s s' f : app_step t s = Ok (s', f) -> exists a, control t (a_q s) (a_x s) (a_R s) (a_ab s) = Ok (a, (f_tau f, f_x f, f_R f)).
Proof.
  unfold App.app_step. destruct (control t (a_q s) (a_x s) (a_R s) (a_ab s)) as [[a [[tau x] Q]]| |]; try discriminate. cbn [bind].
  destruct (get_future (t_web t)) as [i| |]; try discriminate. cbn [bind]. destruct (compute_external_forces i a) as [[a1 fe]| |]; try discriminate. cbn [bind].
  destruct (string_at i "key_down") as [key| |]; try discriminate. cbn [bind]. destruct (DI _ _ _ _ _ _ a1) as [[a2 d]| |]; try discriminate. cbn [bind].
  intros H. inversion H; subst. cbn. eauto.
Qed.
Lemma step_measured h b c s t s' f : good (a_ab s) -> reached solve pinv h b -> base_fixed false h = true -> one_threshold 0 h -> a_ab s = set_cache b (Some c) ->
  app_step t s = Ok (s', f) ->
  exists gx gR gq e, t_pos t = Some gx /\ t_ori t = Some gR /\ t_joint t = Some gq /\
    measured solve pinv (main_acc pd_pos pd_ori gx gR (a_x s) (a_R s)) (fun _ => pd_joint (ab_q b) (a_q s) (ab_dq b) gq) b e /\
    f_x f = e_x e /\ f_R f = e_R e /\ f_tau f = vadd (vadd (e_main e) (e_joint e)) (e_grav e).
Proof.
  intros G R B OT E H. destruct (step_control _ _ _ _ H) as [a C].
  assert (Gb : good b) by (eapply good_reached; eauto).
  assert (X : outcome (control t (a_q s) (a_x s) (a_R s) b) = Ok (f_tau f, f_x f, f_R f)).
  { assert (Y : outcome (control t (a_q s) (a_x s) (a_R s) (a_ab s)) = Ok (f_tau f, f_x f, f_R f)) by (rewrite C; reflexivity). rewrite <- Y. rewrite !control_exec.
    replace (ab_dof b) with (ab_dof (a_ab s)) by (rewrite E; reflexivity). replace (ab_q b) with (ab_q (a_ab s)) by (rewrite E; reflexivity). replace (ab_dq b) with (ab_dq (a_ab s)) by (rewrite E; reflexivity).
    rewrite (exec_fresh solve pinv _ (a_ab s) c (control_safe pd_pos pd_ori pd_joint _ _ _ _ _ _ _) G), (exec_fresh solve pinv _ b c (control_safe pd_pos pd_ori pd_joint _ _ _ _ _ _ _) Gb).
    rewrite E. reflexivity. }
  destruct (control t (a_q s) (a_x s) (a_R s) b) as [[b' [[tau x] Q]]| |] eqn:EB; try discriminate. cbn in X. inversion X; subst.
  destruct (app_measured solve pinv pd_pos pd_ori pd_joint t _ _ _ h b b' _ _ _ R B OT EB) as (gx & gR & gq & e & H1 & H2 & H3 & M & H4 & H5 & H6 & _).
  exists gx, gR, gq, e. auto 10.
Qed.
Lemma c63_torque h s ts fs s1 t s2 f : reached solve pinv h (a_ab s) -> base_fixed false h = true -> one_threshold 0 h ->
  app_loop ts s = Ok (fs, Some s1) -> app_step t s1 = Ok (s2, f) ->
  exists gx gR gq e, t_pos t = Some gx /\ t_ori t = Some gR /\ t_joint t = Some gq /\
    measured solve pinv (main_acc pd_pos pd_ori gx gR (a_x s1) (a_R s1)) (fun _ => pd_joint (ab_q (a_ab s1)) (a_q s1) (ab_dq (a_ab s1)) gq) (a_ab s1) e /\
    f_x f = e_x e /\ f_R f = e_R e /\ List.length (f_tau f) = ab_dof (a_ab s1) /\
    forall i, (i < ab_dof (a_ab s1))%nat -> coef (f_tau f) i = coef (e_main e) i + coef (e_joint e) i + coef (e_grav e) i.
Proof.
  intros R B OT E H. destruct (sibling_loop ts s fs s1 (sibling_reached _ _ R B OT) E) as (G & h1 & b & c & R1 & B1 & OT1 & Eb).
  destruct (step_measured h1 b c s1 t s2 f G R1 B1 OT1 Eb H) as (gx & gR & gq & e & H1 & H2 & H3 & M & H4 & H5 & H6).
  destruct (measured_lengths solve pinv h1 _ _ b e R1 B1 M) as (L1 & L2 & L3 & _). pose proof (vadd_length _ _ _ L1 L2) as L12.
  exists gx, gR, gq, e. assert (D : ab_dof (a_ab s1) = ab_dof b) by (rewrite Eb; reflexivity). assert (Dd : ab_dq (a_ab s1) = ab_dq b) by (rewrite Eb; reflexivity). assert (Dq : ab_q (a_ab s1) = ab_q b) by (rewrite Eb; reflexivity).
  repeat (split; [assumption|]). split; [|split; [auto|split; [auto|split]]].
  - rewrite Dq, Dd. eapply measured_same; [exact D|exact Dd| |exact M]. intros q P. eapply sibling_ask; eauto.
  - rewrite H6, D. apply vadd_length; auto.
  - rewrite D. intros i Hi. rewrite H6. change (@coef S) with (@qk S). rewrite (coef_vadd (ab_dof b)), (coef_vadd (ab_dof b)) by auto. reflexivity.
Qed.
Lemma c63_commanded h s ts fs s1 t s2 f A : reached solve pinv h (a_ab s) -> base_fixed false h = true -> one_threshold 0 h ->
  app_loop ts s = Ok (fs, Some s1) -> app_step t s1 = Ok (s2, f) -> proper (a_ab s1) ->
  outcome (ask solve pinv QInertia (a_ab s1)) = Ok (AMat A) -> solver_ok solve (ab_dof (a_ab s1)) A ->
  exists gx gR gq e, t_pos t = Some gx /\ t_ori t = Some gR /\ t_joint t = Some gq /\
    measured solve pinv (main_acc pd_pos pd_ori gx gR (a_x s1) (a_R s1)) (fun _ => pd_joint (ab_q (a_ab s1)) (a_q s1) (ab_dq (a_ab s1)) gq) (a_ab s1) e /\
    forall Li, outcome (ask solve pinv (QoLinv (main_rows e)) (a_ab s1)) = Ok (AMat Li) -> inverse_of (List.length (main_rows e)) Li (fst (pinv Li 0)) ->
    let want := main_acc pd_pos pd_ori gx gR (a_x s1) (a_R s1) e in
    forall eps, exists ddq, outcome (ask solve pinv (QFD (f_tau f) (fun _ => None) (IdOpts true false false eps)) (a_ab s1)) = Ok (AVec ddq) /\
      List.length ddq = ab_dof (a_ab s1) /\ List.length want = List.length (main_rows e) /\
      forall i, (i < List.length (main_rows e))%nat -> row_times (ab_dof (a_ab s1)) (main_rows e) ddq i = coef want i.
Proof.
  intros R B OT E H P EA SO. destruct (sibling_loop ts s fs s1 (sibling_reached _ _ R B OT) E) as (G & h1 & b & c & R1 & B1 & OT1 & Eb).
  destruct (step_measured h1 b c s1 t s2 f G R1 B1 OT1 Eb H) as (gx & gR & gq & e & H1 & H2 & H3 & M & H4 & H5 & H6).
  assert (D : ab_dof (a_ab s1) = ab_dof b) by (rewrite Eb; reflexivity). assert (Dd : ab_dq (a_ab s1) = ab_dq b) by (rewrite Eb; reflexivity).
  assert (SA : forall q, plain q -> outcome (ask solve pinv q (a_ab s1)) = outcome (ask solve pinv q b)) by (intros q Q; eapply sibling_ask; eauto).
  assert (Pb : proper b). { destruct (reached_wfc solve pinv h1 b R1 B1) as [_ (cb & Ec & _)]. replace b with (set_cache (a_ab s1) (Some cb)) by (rewrite Eb; destruct b; cbn in *; subst; reflexivity). apply proper_cache. exact P. }
  assert (Dq : ab_q (a_ab s1) = ab_q b) by (rewrite Eb; reflexivity).
  exists gx, gR, gq, e. repeat (split; [assumption|]). rewrite Dd, Dq. split; [eapply measured_same; eauto|].
  rewrite D in *. intros Li EL IV want eps. subst want. rewrite SA in EA by (apply plain_none; auto). rewrite SA in EL by (apply plain_none; auto).
  assert (FD : outcome (ask solve pinv (QFD (f_tau f) (fun _ => None) (IdOpts true false false eps)) (a_ab s1)) = outcome (ask solve pinv (QFD (f_tau f) (fun _ => None) (IdOpts true false false eps)) b)).
  { destruct (reached_wfc solve pinv h1 b R1 B1) as [T W]. cbn [ask]. rewrite !outcome_wrap, (out_FD solve _ (gd_tree _ _ _ _ G) (gd_wfc _ _ _ _ G)), (out_FD solve b T W) by auto. rewrite Eb. reflexivity. }
  rewrite FD. apply (c63_task solve pinv _ _ e h1 b A Li (f_tau f) R1 B1 OT1 Pb EA SO M EL IV H6).
Qed.
End Loop.
