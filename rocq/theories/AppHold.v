(** The simulator application (C63): a robot nobody touches. *)
From Coq Require Import List Arith ZArith Bool String Ascii Lia Field.
From Verif Require Import Scalar Base Spatial Joint Body Kin InvDyn FwdDyn Opspace OpspaceAba Deriv Sim Ops Control Discrete Json App Specs SpecCache SpecKin SpecDyn SpecOps SpecControl SpecDiscrete SpecHold SpecApp
  TreeProofs CacheProofs CacheOps KinProofs BigSum DynProofs DynApi OpsCache OpsApi OpsAlg OpsTask ControlProofs JsProofs VelProofs TwinProofs DiscreteCache DiscreteProofs DiscreteTravel DiscreteStill HoldProofs AppProofs AppLoop AppForce.
Import ListNotations.
Local Open Scope nat_scope.

Section Hold.
Context {S : Scal} {L : ScalLaws S} {PL : PosLaws S} {ES : EqSound S}.
Add Field kf : (@kfield S L).
Variable solve : list (list K) -> list K -> list K.
Variable pinv : list (list K) -> K -> list (list K) * bool.
Variable log6 : iso -> motion.
Variable dlog6 : iso -> i6.
Variable norm : list K -> K.
Variable pd_pos : v3 -> v3 -> list K -> K * K -> list K.
Variable pd_ori : m3 -> m3 -> list K -> K * K -> list K.
Variable pd_joint : list K -> list K -> list K -> K * K -> list K.
Local Open Scope k_scope.
#[local] Instance comm_apph : AddComm S := laws_comm.
Local Notation good := (good solve pinv (fun _ => True)).
Local Notation on := (on solve pinv).
Local Notation DI := (q_DiscreteIntegrate solve log6 dlog6 norm).
Local Notation control := (app_control solve pinv pd_pos pd_ori pd_joint).
Local Notation app_step := (app_step solve pinv log6 dlog6 norm pd_pos pd_ori pd_joint).
Local Notation app_loop := (app_loop solve pinv log6 dlog6 norm pd_pos pd_ori pd_joint).

Section Robot.
Variables (h : list op) (ab : body) (x : v3) (R : m3).
Hypothesis Re : reached solve pinv h ab.
Hypothesis B : base_fixed false h = true.
Hypothesis OT : one_threshold 0 h.
Hypothesis Hn : (0 < ab_dof ab)%nat.
Hypothesis P : proper ab.
Hypothesis Z : at_rest ab.
Hypothesis Hx : outcome (ask solve pinv (QPos (-1) ee_offset) ab) = Ok (AV3 x).
Hypothesis HR : outcome (ask solve pinv (QOri (-1)) ab) = Ok (AM3 R).
Hypothesis P1 : forall x g, pd_pos x x [0; 0; 0] g = [0; 0; 0].
Hypothesis P2 : forall R g, pd_ori R R [0; 0; 0] g = [0; 0; 0].
Hypothesis P3 : forall q g, List.length q = ab_dof ab -> pd_joint q q (repeat 0 (ab_dof ab)) g = repeat 0 (ab_dof ab).
Let n := ab_dof ab.
Let T : tree_ok ab := proj1 (reached_wfc solve pinv h ab Re B).
Let W : wfc ab := proj2 (reached_wfc solve pinv h ab Re B).

Lemma dq_zero : ab_dq ab = repeat 0 n.
Proof. rewrite repeat_vec. rewrite (list_eq_vec (ab_dq ab) n) by apply T. apply vec_ext. intros i Hi. apply (Z i Hi). Qed.
Lemma lmulv_rest m J : lmulv m n J (ab_dq ab) = repeat 0 m.
Proof. rewrite repeat_vec. unfold lmulv. apply vec_ext. intros i Hi. apply ksum_zero. intros j Hj. change (qk (ab_dq ab) j) with (coef (ab_dq ab) j). rewrite (Z j Hj). ring. Qed.
Lemma oid_zero_on a J ddx N m : on ab a -> sized m n J -> List.length ddx = m -> (forall i, coef ddx i = 0) ->
  (forall M, N = Some M -> M <> [] -> shape n n M = true) ->
  exists a' N' t, q_ops_InverseDynamics solve pinv J ddx N no_force true ops_default a = Ok (a', (N', t)) /\ on ab a' /\
    (forall M, N' = Some M -> M <> [] -> shape n n M = true) /\ (N <> None -> List.length t = n) /\ forall i, (i < n)%nat -> coef t i = 0.
Proof.
  intros O HJ Ld Hz SN. destruct (oid_total solve pinv ab a J ddx N m O HJ Ld SN) as (a' & N' & t & E & O' & SN').
  exists a', N', t. split; [exact E|]. split; [exact O'|]. split; [exact SN'|].
  destruct O as (ha & ca & Ra & Ba & OTa & Ea). assert (Na : ab_dof a = n) by (subst a; reflexivity).
  assert (X : outcome (ask solve pinv (QoID J ddx N no_force true ops_default) a) = Ok (ANull N' t)) by exact (f_equal outcome (ask_oid solve pinv _ _ _ _ _ _ _ E)).
  split.
  - intros NN. destruct N as [M|]; [|congruence]. destruct (oid_length solve pinv _ _ _ _ _ _ _ _ _ X) as [LT _]. congruence.
  - intros i Hi. apply (oid_zero solve pinv ha a J ddx N N' t Ra Ba OTa Hz X). rewrite Na. auto.
Qed.
Lemma control_hold t : t_pos t <> None -> t_ori t <> None -> t_joint t <> None ->
  exists tau, outcome (control t (ab_q ab) x R ab) = Ok (tau, x, R) /\ List.length tau = n /\ forall i, (i < n)%nat -> coef tau i = Gv ab i.
Proof.
  intros N1 N2 N3. pose proof (on_start solve pinv h ab Re B OT) as O0. unfold app_control. fold n.
  assert (IX : idx n (-1) = Some (n - 1)%nat). { unfold idx, norm_idx, n. cbn [Z.ltb Z.compare]. replace ((0 <=? -1 + Z.of_nat (ab_dof ab))%Z) with true by (symmetry; apply Z.leb_le; lia). replace ((-1 + Z.of_nat (ab_dof ab) <? Z.of_nat (ab_dof ab))%Z) with true by (symmetry; apply Z.ltb_lt; lia). cbn [andb]. f_equal. lia. }
  assert (FR : forall a q (mem : cache), on ab a -> plain q -> outcome (ask solve pinv q a) = outcome (ask solve pinv q ab)).
  { intros a q mem O PQ. rewrite (on_cold solve pinv ab a q mem O PQ), (on_cold solve pinv ab ab q mem O0 PQ). reflexivity. }
  destruct W as (c0 & _).
  destruct (on_wf solve pinv _ _ O0) as (T0 & W0 & _). destruct (out_Jac ab T0 W0 (-1) ee_offset) as (o' & _ & X). fold n in X. rewrite IX in X. destruct (out_ok _ _ X) as [a1 A1]. rewrite A1. cbn [bind].
  set (cols := vec n (jacv ab (n - 1) o')) in *.
  assert (O1 : on ab a1) by (eapply (on_ask solve pinv ab ab (QJac (-1) ee_offset) a1 (AMots cols) O0); [intros ? []|cbn [ask]; rewrite A1; reflexivity]).
  assert (X2 : outcome (q_Position (-1) ee_offset a1) = Ok x).
  { pose proof (FR a1 (QPos (-1) ee_offset) c0 O1 ltac:(split; [intros ? []|auto])) as Y. rewrite Hx in Y. cbn [ask] in Y. rewrite outcome_wrap in Y. destruct (outcome (q_Position _ _ a1)); cbn in Y; congruence. }
  destruct (out_ok _ _ X2) as [a2 A2]. rewrite A2. cbn [bind].
  assert (O2 : on ab a2) by (eapply (on_ask solve pinv ab a1 (QPos (-1) ee_offset) a2 (AV3 x) O1); [intros ? []|cbn [ask]; rewrite A2; reflexivity]).
  destruct (on_wf solve pinv _ _ O2) as (_ & _ & _ & _ & D2 & Q2 & V2). rewrite V2, lmulv_rest. destruct (t_pos t) as [g1|]; [|congruence]. cbn [get_future bind]. cbn [repeat]. rewrite P1.
  assert (X3 : outcome (q_Orientation (-1) a2) = Ok R).
  { pose proof (FR a2 (QOri (-1)) c0 O2 ltac:(split; [intros ? []|auto])) as Y. rewrite HR in Y. cbn [ask] in Y. rewrite outcome_wrap in Y. destruct (outcome (q_Orientation _ a2)); cbn in Y; congruence. }
  destruct (out_ok _ _ X3) as [a3 A3]. rewrite A3. cbn [bind].
  assert (O3 : on ab a3) by (eapply (on_ask solve pinv ab a2 (QOri (-1)) a3 (AM3 R) O2); [intros ? []|cbn [ask]; rewrite A3; reflexivity]).
  destruct (on_wf solve pinv _ _ O3) as (_ & _ & _ & _ & D3 & Q3 & V3). rewrite V3, lmulv_rest. destruct (t_ori t) as [g2|]; [|congruence]. cbn [get_future bind]. cbn [repeat]. rewrite P2.
  set (J := jac_rows cols) in *.
  assert (HJ : sized 6 n J).
  { unfold J, jac_rows. split; [reflexivity|]. assert (LC : List.length cols = n) by apply vec_length. repeat constructor; rewrite map_length; exact LC. }
  assert (HJ3 : sized 3 n (firstn 3 J)) by (destruct HJ as [_ F]; split; [reflexivity|]; apply Forall_forall; intros r Hr; rewrite Forall_forall in F; apply F; rewrite <- (firstn_skipn 3 J); apply in_app_iff; auto).
  assert (SE : forall M : lmat, Some (@nil (list K)) = Some M -> M <> [] -> shape n n M = true) by (intros M EM NM; congruence).
  assert (Z3 : forall i, coef [0; 0; 0] i = 0) by (intros i; do 4 (destruct i as [|i]; [reflexivity|]); reflexivity).
  assert (Z6 : forall i, coef ([0; 0; 0] ++ [0; 0; 0]) i = 0) by (intros i; do 7 (destruct i as [|i]; [reflexivity|]); reflexivity).
  destruct (sing_total solve pinv ab a3 J 0 6 O3 HJ) as (a4 & sg & E4 & O4). rewrite E4. cbn [bind].
  assert (M : exists a5 N t1, (if sg then q_ops_InverseDynamics solve pinv (firstn 3 J) [0; 0; 0] (Some []) no_force true ops_default a4
      else q_ops_InverseDynamics solve pinv J ([0; 0; 0] ++ [0; 0; 0]) (Some []) no_force true ops_default a4) = Ok (a5, (N, t1)) /\ on ab a5 /\
      (forall M, N = Some M -> M <> [] -> shape n n M = true) /\ List.length t1 = n /\ N <> None /\ forall i, (i < n)%nat -> coef t1 i = 0).
  { assert (NS : forall J ddx a5 N t1, q_ops_InverseDynamics solve pinv J ddx (Some []) no_force true ops_default a4 = Ok (a5, (N, t1)) -> N <> None).
    { intros J' ddx a5 N t1 E. assert (Y : outcome (ask solve pinv (QoID J' ddx (Some []) no_force true ops_default) a4) = Ok (ANull N t1)) by exact (f_equal outcome (ask_oid solve pinv _ _ _ _ _ _ _ E)).
      destruct (oid_length solve pinv _ _ _ _ _ _ _ _ _ Y) as [_ [? ->]]. discriminate. }
    destruct sg.
    - destruct (oid_zero_on a4 (firstn 3 J) [0; 0; 0] (Some []) 3 O4 HJ3 eq_refl Z3 SE) as (a5 & N & t1 & E & Oa & Sa & La & Za). exists a5, N, t1. split; [exact E|]. split; [auto|]. split; [auto|]. split; [apply La; discriminate|]. split; [eapply NS; exact E|auto].
    - destruct (oid_zero_on a4 J ([0; 0; 0] ++ [0; 0; 0]) (Some []) 6 O4 HJ eq_refl Z6 SE) as (a5 & N & t1 & E & Oa & Sa & La & Za). exists a5, N, t1. split; [exact E|]. split; [auto|]. split; [auto|]. split; [apply La; discriminate|]. split; [eapply NS; exact E|auto]. }
  destruct M as (a5 & N & t1 & E5 & O5 & SN & L5 & NN & Z5). rewrite E5. cbn [bind]. clear E5.
  destruct (on_wf solve pinv _ _ O5) as (_ & _ & _ & _ & D5 & Q5 & V5). rewrite Q5, V5, dq_zero. destruct (t_joint t) as [g3|]; [|congruence]. cbn [get_future bind]. rewrite P3 by apply T.
  destruct (oid_zero_on a5 (lid n) (repeat 0 n) N n O5 (mat_square _ _) (repeat_length _ _) (coef_rep n) SN) as (a6 & N6 & t6 & E6 & O6 & _ & L6 & Z6').
  fold n. rewrite E6. cbn [bind]. destruct (on_wf solve pinv _ _ O6) as (T6 & W6 & _ & _ & D6 & _).
  pose proof (out_Grav a6 T6 W6) as X6. destruct (out_ok _ _ X6) as [a7 A7]. rewrite A7. cbn [bind]. specialize (L6 NN).
  assert (EG : forall i, Gv a6 i = Gv ab i) by (intros i; destruct O6 as (? & ? & _ & _ & _ & ->); reflexivity).
  rewrite D6. fold n. eexists. split; [reflexivity|].
  pose proof (vadd_length _ _ _ L5 L6) as L56. split; [apply vadd_length; [exact L56|apply vec_length]|].
  intros i Hi. change (@coef S) with (@qk S) in *. rewrite (coef_vadd n), (coef_vadd n), Z5, Z6' by (auto; apply vec_length). change (@qk S) with (@coef S). rewrite coef_vec by auto. rewrite EG. ring.
Qed.

(** The same for every robot the loop can meet. *)
Definition calm (a : body) : Prop := good a /\ (exists c, a = set_cache ab (Some c)) /\
  exists c, ab_cache a = Some c /\ dri log6 dlog6 a (ca_dr c) /\ (is_qprev (ca_dr c) = true -> d_qprev (ca_dr c) = ab_q ab).
Lemma calm_ready a dt : calm a -> ready log6 dlog6 dt (ab_q ab) a.
Proof.
  intros (G & (c0 & ->) & c & Ec & D & Q). destruct G as [Ta Wa _ _ _]. split; [auto|]. destruct Wa as (c' & E' & V). assert (c' = c) by congruence. subst c'.
  exists c. split; [auto|]. split; [auto|]. split; [auto|]. unfold prevq. destruct (is_qprev (ca_dr c)) eqn:F; cbn [andb].
  - destruct (keq _ _); [apply Q; auto|]. cbn [ab_q ab_dq ab_dof set_cache]. eapply eq_trans; [|symmetry; apply (list_eq_vec (ab_q ab) n); apply T]. apply vec_ext. intros i Hi. change (qk (ab_dq ab) i) with (coef (ab_dq ab) i). rewrite (Z i Hi). ring.
  - cbn [ab_q ab_dq ab_dof set_cache]. eapply eq_trans; [|symmetry; apply (list_eq_vec (ab_q ab) n); apply T]. apply vec_ext. intros i Hi. change (qk (ab_dq ab) i) with (coef (ab_dq ab) i). rewrite (Z i Hi). ring.
Qed.
Lemma calm_start : calm ab.
Proof.
  split; [apply (good_reached solve pinv _ h); auto|]. split.
  - destruct W as (c & E & _). exists c. destruct ab; cbn in *; subst; reflexivity.
  - destruct (dreached_inv solve pinv log6 dlog6 norm (map DOp h) ab (dop_reached solve pinv log6 dlog6 norm h ab Re) (dop_fixed h false B) (dop_none h) (dts_all _)) as (_ & _ & (c & E & D & M)).
    exists c. split; [auto|]. split; [auto|]. intros F. rewrite (M F). eapply eq_trans; [|symmetry; apply (list_eq_vec (ab_q ab) n); apply T]. apply vec_ext. intros i Hi. change (qk (ab_dq ab) i) with (coef (ab_dq ab) i). rewrite (Z i Hi). ring.
Qed.
Lemma calm_exec {A} (p : prog A) a a' y : safe_prog p -> calm a -> exec solve pinv p a = Ok (a', y) -> calm a'.
Proof.
  intros Sp (G & (c0 & E0) & c & Ec & D & Q) E. destruct (exec_good solve pinv p Sp a a' y G E) as [G' [c' E']].
  split; [auto|]. split; [exists c'; subst; reflexivity|].
  destruct (exec_run solve pinv p a a' y E) as [qs HQ].
  assert (X : forall qs a a', run solve pinv (map OAsk qs) a = Some a' -> forall c, ab_cache a = Some c -> exists c', ab_cache a' = Some c' /\ ca_dr c' = ca_dr c).
  { clear. induction qs as [|q qs IH]; intros a a' E c Ec; [cbn in E; inversion E; subst; eauto|]. cbn [map run] in E. destruct (step solve pinv (OAsk q) a) as [a1|] eqn:Q; [|discriminate].
    apply step_ask in Q. destruct Q as [->|(q' & x & Q)]; [eapply IH; eauto|]. destruct (ask_dr solve pinv q' a a1 x Q c Ec) as (c1 & E1 & E2). destruct (IH a1 a' E c1 E1) as (c2 & E3 & E4). exists c2. split; [auto|congruence]. }
  destruct (X qs a a' HQ c Ec) as (c2 & E2 & E3). exists c2. split; [auto|]. rewrite E3. split; [|exact Q]. subst a'. exact D.
Qed.

Hypothesis SO : solver_ok solve n (mat n n (Av ab)).
Hypothesis IJ : injective n (mat n n (Av ab)).
Hypothesis EL : log6 iso_id = mzero.
Hypothesis HN : klt (norm (repeat 0 n)) (klit 1 100000000) = true.

Lemma di_frame tau dt fe grav eps cap a a' d : DI tau dt fe grav eps cap a = Ok (a', d) -> ab_q a' = ab_q a -> ab_dq a' = ab_dq a ->
  exists c, a' = set_cache a (Some (shift (ab_q a) c)).
Proof.
  intros H Eq Ed. unfold q_DiscreteIntegrate in H. destruct (Nat.eqb _ _); [|discriminate]. destruct (ab_cache a) as [c|]; [|discriminate].
  destruct (forward_dynamics _ _ _ _ _ _) as [c1 y]. destruct (newton _ _ _ _ _ _ _ _ _ _ _ _ _) as [[c2 qn] dn].
  unfold bind at 1 in H. destruct (set_q qn _) as [a3 []|?|] eqn:Sq; cbn [called] in H; try discriminate.
  unfold bind at 1 in H. destruct (set_dq _ a3) as [a4 []|?|] eqn:Sd in H; cbn [called] in H; try discriminate.
  destruct (ab_cache a4) as [c4|] eqn:E4; [|discriminate]. inversion H; subst a' d; clear H. cbn [ab_q ab_dq set_cache] in Eq, Ed.
  exists c4. unfold set_q in Sq. destruct (negb _) in Sq; [discriminate|]. destruct (negb _) in Sq; [discriminate|].
  unfold set_dq in Sd. destruct (negb _) in Sd; [discriminate|]. destruct (negb _) in Sd; [discriminate|].
  destruct (veqb _ _) in Sq; destruct (veqb _ _) in Sd; inversion Sq; subst a3; inversion Sd; subst a4; clear Sq Sd; destruct a; cbn in *; subst; reflexivity.
Qed.
Lemma step_hold t a : calm a -> undisturbed ab t -> t_dt t <> 0 -> keq (t_dt t) (t_dt t) = true ->
  exists a' f, app_step t (App a (ab_q ab) x R) = Ok (App a' (ab_q ab) x R, f) /\ calm a' /\
    List.length (f_tau f) = n /\ (forall i, (i < n)%nat -> coef (f_tau f) i = Gv ab i) /\ f_goal f = x /\ f_q f = ab_q ab /\ f_dq f = ab_dq ab /\ f_x f = x /\ f_R f = R /\ f_fe f = no_force /\ f_done f = true.
Proof.
  intros C (N1 & N2 & N3 & i & Hw & He & (key & Hk) & Hp) Hdt Hq.
  destruct (control_hold t N1 N2 N3) as (tau & E & LT & CT).
  assert (EA : outcome (control t (ab_q ab) x R a) = Ok (tau, x, R)).
  { rewrite <- E. rewrite !control_exec. destruct W as (c0 & _). destruct C as (G & (ca & Ea) & _).
    assert (DA : ab_dof a = ab_dof ab /\ ab_q a = ab_q ab /\ ab_dq a = ab_dq ab) by (subst a; auto). destruct DA as (-> & -> & ->).
    rewrite (exec_fresh solve pinv _ a c0 (control_safe pd_pos pd_ori pd_joint _ _ _ _ _ _ _) G).
    rewrite (exec_fresh solve pinv _ ab c0 (control_safe pd_pos pd_ori pd_joint _ _ _ _ _ _ _) ltac:(apply (good_reached solve pinv _ h); auto)).
    subst a. reflexivity. }
  destruct (out_ok _ _ EA) as [a1 A1].
  assert (C1 : calm a1) by (eapply calm_exec; [apply (control_safe pd_pos pd_ori pd_joint)|exact C|rewrite <- control_exec; exact A1]).
  assert (X : App.app_step solve pinv log6 dlog6 norm pd_pos pd_ori pd_joint t (App a (ab_q ab) x R) =
    bind (DI tau (t_dt t) no_force true variational_epsilon max_iterations a1) (fun '(ab', done) => Ok (App ab' (ab_q ab) x R, Frame tau x (ab_q ab') (ab_dq ab') x R no_force done))).
  { unfold App.app_step. cbn [a_ab a_q a_x a_R]. rewrite A1. cbn [bind]. rewrite Hw. cbn [get_future bind].
    assert (He1 : elsewhere i a1) by (destruct C1 as (_ & (c1 & ->) & _); exact He). rewrite (elsewhere_none i a1 He1). cbn [bind]. rewrite (shows_str _ _ _ Hk). cbn [bind].
    assert (AP : adjust_position key x = x).
    { destruct key as [|ch key]; [reflexivity|]. unfold adjust_position. destruct Hk as (l & El & Ea).
      assert (Y : forall c, In c ["a"; "d"; "w"; "s"; "e"; "q"]%char -> Ascii.eqb ch c = false).
      { intros c Hc. specialize (Hp c Hc). subst i. cbn in Hp. rewrite Ea in Hp. rewrite Ascii.eqb_sym. exact Hp. }
      rewrite !Y by (cbn; auto 10). reflexivity. }
    rewrite AP. reflexivity. }
  rewrite X. pose proof C1 as (G1 & (c1 & E1) & _). pose proof (calm_ready a1 (t_dt t) C1) as RD.
  assert (AE : ab_dof a1 = n /\ ab_q a1 = ab_q ab /\ ab_dq a1 = ab_dq ab) by (subst a1; auto). destruct AE as (D1 & Q1 & V1).
  assert (Pa : proper a1) by (subst a1; destruct P; constructor; auto).
  destruct (still_ready solve log6 dlog6 norm a1 tau (t_dt t) no_force true variational_epsilon max_iterations) as (a2 & E2 & Q2 & V2); auto.
  - apply G1.
  - apply G1.
  - rewrite Q1. exact RD.
  - rewrite D1. subst a1. exact SO.
  - rewrite D1. subst a1. exact IJ.
  - intros j Hj. rewrite V1. apply Z. rewrite D1 in Hj. exact Hj.
  - congruence.
  - intros j Hj. rewrite D1 in Hj. rewrite CT by auto. rewrite (ext_none' a1 no_force (gd_tree _ _ _ _ G1) Pa ltac:(reflexivity) j ltac:(rewrite D1; auto)). subst a1. change (Gv (set_cache ab (Some c1)) j) with (Gv ab j). ring.
  - unfold max_iterations. lia.
  - rewrite D1. exact HN.
  - rewrite E2. cbn [bind]. pose proof (good_dint solve pinv log6 dlog6 norm _ _ _ _ _ _ _ _ _ G1 E2) as G2.
    destruct (dint_ok solve log6 dlog6 norm _ _ _ _ _ _ _ _ _ (apart (t_dt t)) Hq RD E2) as ((_ & c2 & Ec2 & _ & D2 & _) & I1 & _).
    assert (V2' : ab_dq a2 = ab_dq a1).
    { rewrite V1, dq_zero, repeat_vec. rewrite (list_eq_vec (ab_dq a2) n); [|rewrite (tk_dq _ (gd_tree _ _ _ _ G2)); congruence]. apply vec_ext. intros j Hj. apply V2. rewrite D1. auto. }
    destruct (di_frame _ _ _ _ _ _ _ _ _ E2 Q2 V2') as [c3 E3].
    exists a2. eexists. split; [reflexivity|]. split; [|cbn [f_tau f_goal f_q f_dq f_x f_R f_fe f_done]; repeat split; auto; congruence].
    split; [auto|]. split; [eexists; rewrite E3, E1; reflexivity|]. exists c2. split; [auto|]. split; [auto|]. intros _. rewrite E3 in Ec2. cbn in Ec2. inversion Ec2; subst c2. cbn. exact Q1.
Qed.
Lemma loop_hold ts : (forall t, In t ts -> undisturbed ab t /\ t_dt t <> 0 /\ keq (t_dt t) (t_dt t) = true) -> forall a, calm a ->
  exists fs a', app_loop ts (App a (ab_q ab) x R) = Ok (fs, Some (App a' (ab_q ab) x R)) /\ (exists c, a' = set_cache ab (Some c)) /\ List.length fs = List.length ts /\
    Forall (fun f => List.length (f_tau f) = n /\ (forall i, (i < n)%nat -> coef (f_tau f) i = Gv ab i) /\ f_goal f = x /\ f_q f = ab_q ab /\ f_dq f = ab_dq ab /\ f_x f = x /\ f_R f = R /\ f_done f = true) fs.
Proof.
  induction ts as [|t ts IH]; intros H a C; cbn [App.app_loop].
  - exists [], a. split; [reflexivity|]. split; [apply C|]. split; [reflexivity|constructor].
  - destruct (H t (or_introl eq_refl)) as (H1 & H2 & H3). destruct (step_hold t a C H1 H2 H3) as (a1 & f & E & C1 & F). rewrite E.
    destruct (IH ltac:(intros; apply H; right; auto) a1 C1) as (fs & a' & E' & EC & LL & FF). rewrite E'. cbn [bind]. exists (f :: fs), a'. split; [reflexivity|]. split; [auto|]. split; [cbn; congruence|]. constructor; [|auto]. tauto.
Qed.
End Robot.

Lemma base_fixed_start hh home : forall b, base_fixed b (hh ++ [OSetQ home; OAsk (QPos (-1) ee_offset); OAsk (QOri (-1))]) = base_fixed b hh.
Proof. induction hh as [|o hh IH]; intros b; [reflexivity|]. destruct o; cbn; rewrite ?IH; auto. Qed.
Lemma one_start hh home : one_threshold 0 hh -> one_threshold 0 (hh ++ [OSetQ home; OAsk (QPos (-1) ee_offset); OAsk (QOri (-1))]).
Proof. intros OT q y H. apply in_app_iff in H. destruct H as [H|[H|[H|[H|[]]]]]; [exact (OT q y H)|discriminate|inversion H; intros []..]. Qed.
Lemma c63_start h ab home : reached solve pinv h ab -> base_fixed false h = true -> List.length home = ab_dof ab -> (0 < ab_dof ab)%nat ->
  exists s, app_start home ab = Ok s /\ reached solve pinv (h ++ [OSetQ home; OAsk (QPos (-1) ee_offset); OAsk (QOri (-1))]) (a_ab s) /\
    a_q s = home /\ ab_q (a_ab s) = home /\ ab_dq (a_ab s) = ab_dq ab /\
    Position_q ab home (-1) ee_offset = Ok (a_x s) /\ Orientation_q ab home (-1) = Ok (a_R s).
Proof.
  intros Re B Lh Hn. destruct (reached_wfc solve pinv h ab Re B) as [T W]. unfold app_start.
  destruct (set_q_ok ab home T Lh) as (a1 & E1). rewrite E1. cbn [called bind].
  pose proof (tree_set_q _ _ _ T E1) as T1. pose proof (inv_set_q _ _ _ W E1) as W1.
  assert (F : ab_q a1 = home /\ ab_dq a1 = ab_dq ab /\ ab_dof a1 = ab_dof ab /\ (forall q z o, Position_q a1 q z o = Position_q ab q z o) /\ (forall q z, Orientation_q a1 q z = Orientation_q ab q z)).
  { unfold set_q in E1. destruct (negb _) in E1; [discriminate|]. destruct (negb _) in E1; [discriminate|]. destruct (veqb (ab_q ab) home) eqn:V; inversion E1; subst a1; cbn [ab_q ab_dq ab_dof]; auto 10.
    repeat split; auto. apply veqb_sound. exact V. }
  destruct F as (F1 & F2 & F3 & F4 & F5).
  assert (IX : exists l, idx (ab_dof a1) (-1) = Some l). { rewrite F3. unfold idx, norm_idx. cbn [Z.ltb Z.compare]. replace ((0 <=? -1 + Z.of_nat (ab_dof ab))%Z) with true by (symmetry; apply Z.leb_le; lia). replace ((-1 + Z.of_nat (ab_dof ab) <? Z.of_nat (ab_dof ab))%Z) with true by (symmetry; apply Z.ltb_lt; lia). cbn [andb]. eauto. }
  destruct IX as [l IX].
  pose proof (out_Pos a1 (-1) ee_offset) as X2. rewrite (out_Tw a1 T1 W1), IX in X2. cbn [bind] in X2. destruct (out_ok _ _ X2) as [a2 A2]. rewrite A2. cbn [bind].
  assert (Q2 : ask solve pinv (QPos (-1) ee_offset) a1 = Ok (a2, AV3 (iso_app (twv a1 l) ee_offset))) by (cbn [ask]; rewrite A2; reflexivity).
  destruct (ask_frame solve pinv _ _ _ _ Q2) as [c2 E2]. pose proof (ask_inv solve pinv _ _ _ _ T1 W1 Q2) as W2. assert (T2 : tree_ok a2) by (subst a2; apply tree_set_cache; auto).
  pose proof (out_Ori a2 (-1)) as X3. rewrite (out_Tw a2 T2 W2) in X3. assert (D2 : ab_dof a2 = ab_dof a1) by (subst a2; reflexivity). rewrite D2, IX in X3. cbn [bind] in X3. destruct (out_ok _ _ X3) as [a3 A3]. rewrite A3. cbn [bind].
  assert (Q3 : ask solve pinv (QOri (-1)) a2 = Ok (a3, AM3 (rot (twv a2 l)))) by (cbn [ask]; rewrite A3; reflexivity).
  destruct (ask_frame solve pinv _ _ _ _ Q3) as [c3 E3].
  eexists. split; [reflexivity|]. cbn [a_ab a_q a_x a_R]. split; [|split; [reflexivity|split; [|split; [|split]]]].
  - destruct Re as (name & mem & Re). exists name, mem.
    assert (X : forall t h a b, run solve pinv h a = Some b -> run solve pinv (h ++ t) a = run solve pinv t b).
    { clear. intros t hh. induction hh as [|o' hh IH]; intros a b H; cbn [List.app run] in *; [inversion H; reflexivity|]. destruct (step solve pinv o' a); [apply IH; auto|discriminate]. }
    rewrite (X _ _ _ _ Re). cbn [run step]. rewrite E1. cbn [settled]. rewrite Q2, Q3. reflexivity.
  - rewrite E3, E2. exact F1.
  - rewrite E3, E2. exact F2.
  - rewrite <- F4, <- F1. rewrite (position_stored a1 (-1) ee_offset T1), IX. reflexivity.
  - rewrite <- F5, <- F1. rewrite (orientation_stored a1 (-1) T1), IX. subst a2. reflexivity.
Qed.
Lemma start_proper ab home s : app_start home ab = Ok s -> proper ab -> at_rest ab -> proper (a_ab s) /\ at_rest (a_ab s) /\ ab_dof (a_ab s) = ab_dof ab /\ ab_name (a_ab s) = ab_name ab.
Proof.
  intros E P Z. unfold app_start in E. destruct (set_q home ab) as [a1 []|?|] eqn:E1; cbn [called bind] in E; try discriminate.
  destruct (q_Position _ _ a1) as [[a2 x]| |] eqn:E2; try discriminate. cbn [bind] in E. destruct (q_Orientation _ a2) as [[a3 R]| |] eqn:E3; try discriminate. cbn [bind] in E. inversion E; subst s; clear E. cbn [a_ab].
  assert (Q2 : ask solve pinv (QPos (-1) ee_offset) a1 = Ok (a2, AV3 x)) by (cbn [ask]; rewrite E2; reflexivity).
  assert (Q3 : ask solve pinv (QOri (-1)) a2 = Ok (a3, AM3 R)) by (cbn [ask]; rewrite E3; reflexivity).
  destruct (ask_frame solve pinv _ _ _ _ Q2) as [c2 F2]. destruct (ask_frame solve pinv _ _ _ _ Q3) as [c3 F3]. subst a3 a2. clear E2 E3 Q2 Q3.
  unfold set_q in E1. destruct (negb _) in E1; [discriminate|]. destruct (negb _) in E1; [discriminate|].
  destruct (veqb _ _) in E1; inversion E1; subst a1; clear E1.
  - split; [destruct P; constructor; auto|auto].
  - split; [destruct P as [[]]; constructor; [constructor|..]; auto|auto].
Qed.
Lemma c63_hold h ab home s A G : reached solve pinv h ab -> base_fixed false h = true -> one_threshold 0 h -> proper ab -> at_rest ab ->
  List.length home = ab_dof ab -> (0 < ab_dof ab)%nat -> app_start home ab = Ok s ->
  outcome (ask solve pinv QInertia (a_ab s)) = Ok (AMat A) -> solver_ok solve (ab_dof ab) A -> injective (ab_dof ab) A ->
  outcome (ask solve pinv QGrav (a_ab s)) = Ok (AVec G) ->
  log6 iso_id = mzero -> klt (norm (repeat 0 (ab_dof ab))) (klit 1 100000000) = true ->
  (forall x g, pd_pos x x [0; 0; 0] g = [0; 0; 0]) -> (forall R g, pd_ori R R [0; 0; 0] g = [0; 0; 0]) ->
  (forall q g, List.length q = ab_dof ab -> pd_joint q q (repeat 0 (ab_dof ab)) g = repeat 0 (ab_dof ab)) ->
  forall ts, (forall t, In t ts -> undisturbed ab t /\ t_dt t <> 0 /\ keq (t_dt t) (t_dt t) = true) ->
  exists fs s', app_loop ts s = Ok (fs, Some s') /\ unmoved (a_ab s) (a_ab s') /\ List.length fs = List.length ts /\
    Forall (fun f => List.length (f_tau f) = ab_dof ab /\ (forall i, (i < ab_dof ab)%nat -> coef (f_tau f) i = coef G i) /\
      f_goal f = a_x s /\ f_q f = home /\ f_dq f = ab_dq ab /\ f_x f = a_x s /\ f_R f = a_R s /\ f_done f = true) fs.
Proof.
  intros Re B OT P Z Lh Hn E HA SO IJ HG EL HN P1 P2 P3 ts Hts.
  destruct (c63_start h ab home Re B Lh Hn) as (s' & E' & Re' & H1 & H2 & H3 & H4 & H5). rewrite E in E'. injection E' as <-.
  destruct (start_proper ab home s E P Z) as (P' & Z' & D & NM).
  set (h' := h ++ [OSetQ home; OAsk (QPos (-1) ee_offset); OAsk (QOri (-1))]) in *.
  assert (B' : base_fixed false h' = true) by (unfold h'; rewrite base_fixed_start; auto).
  assert (OT' : one_threshold 0 h') by (apply one_start; auto).
  destruct (reached_wfc solve pinv h' _ Re' B') as [T W].
  assert (EP : outcome (ask solve pinv (QPos (-1) ee_offset) (a_ab s)) = Ok (AV3 (a_x s)) /\ outcome (ask solve pinv (QOri (-1)) (a_ab s)) = Ok (AM3 (a_R s))).
  { assert (F : (forall q z o, Position_q (a_ab s) q z o = Position_q ab q z o) /\ (forall q z, Orientation_q (a_ab s) q z = Orientation_q ab q z)).
    { clear - E pinv solve. unfold app_start in E. destruct (set_q home ab) as [a1 []|?|] eqn:E1; cbn [called bind] in E; try discriminate.
      destruct (q_Position _ _ a1) as [[a2 x]| |] eqn:E2; try discriminate. cbn [bind] in E. destruct (q_Orientation _ a2) as [[a3 R]| |] eqn:E3; try discriminate. cbn [bind] in E. inversion E; subst s; clear E. cbn [a_ab].
      assert (Q2 : ask solve pinv (QPos (-1) ee_offset) a1 = Ok (a2, AV3 x)) by (cbn [ask]; rewrite E2; reflexivity).
      assert (Q3 : ask solve pinv (QOri (-1)) a2 = Ok (a3, AM3 R)) by (cbn [ask]; rewrite E3; reflexivity).
      destruct (ask_frame solve pinv _ _ _ _ Q2) as [c2 F2]. destruct (ask_frame solve pinv _ _ _ _ Q3) as [c3 F3]. subst a3 a2. clear E2 E3 Q2 Q3.
      unfold set_q in E1. destruct (negb _) in E1; [discriminate|]. destruct (negb _) in E1; [discriminate|]. destruct (veqb _ _) in E1; inversion E1; subst a1; split; reflexivity. }
    destruct F as [F1 F2]. cbn [ask]. rewrite !outcome_wrap, out_Pos, out_Ori, !(out_Tw _ T W). rewrite <- F1, <- H2, (position_stored _ _ _ T) in H4. rewrite <- F2, <- H2, (orientation_stored _ _ T) in H5.
    destruct (idx _ _); [|discriminate]. injection H4 as <-. injection H5 as <-. split; reflexivity. }
  destruct EP as [EP EO].
  cbn [ask] in HG, HA. rewrite outcome_wrap, (out_Grav _ T W) in HG. rewrite outcome_wrap, (out_Inertia _ T W) in HA. cbn in HG, HA. inversion HG; subst G. inversion HA; subst A. clear HG HA.
  rewrite <- D in *.
  destruct (loop_hold h' (a_ab s) (a_x s) (a_R s) Re' B' OT' Hn P' Z' EP EO P1 P2 P3 SO IJ EL HN ts) with (a := a_ab s) as (fs & a' & E2 & EC & LL & FF).
  - intros t Ht. destruct (Hts t Ht) as (U & U2). split; [|auto]. unfold undisturbed, elsewhere in *. rewrite NM. exact U.
  - eapply (calm_start h'); eauto.
  - assert (ES' : App (a_ab s) (ab_q (a_ab s)) (a_x s) (a_R s) = s) by (destruct s; cbn in *; congruence). rewrite ES' in E2.
    exists fs. eexists. split; [exact E2|]. split; [exact EC|]. split; [exact LL|]. eapply Forall_impl; [|exact FF].
    intros f (I1 & I2 & I3 & I4 & I5 & I6 & I7 & I8). split; [exact I1|]. split; [|split; [auto|split; [congruence|split; [congruence|auto]]]].
    intros i Hi. rewrite I2, coef_vec by auto. reflexivity.
Qed.
End Hold.
