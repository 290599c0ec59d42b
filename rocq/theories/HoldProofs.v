(** Robots that stay where they are (C58). *)
From Coq Require Import List Arith ZArith Bool Lia Field.
From Verif Require Import Scalar Base Spatial Joint Body Kin InvDyn FwdDyn Opspace OpspaceAba Deriv Sim Ops Control JointControl Specs SpecCache SpecKin SpecDyn SpecOps SpecControl SpecHold
  TreeProofs CacheProofs CacheOps KinProofs WorldProofs BigSum DynProofs DynApi OpsCache OpsApi OpsAlg OpsTask ControlProofs JsProofs VelProofs DiscreteProofs DiscreteTravel DiscreteStill.
Import ListNotations.

Section Gen.
Context {S : Scal} {L : ScalLaws S} {ES : EqSound S}.
Add Field kf : (@kfield S L).
Local Open Scope k_scope.
Variable solve : list (list K) -> list K -> list K.
Variable pinv : list (list K) -> K -> list (list K) * bool.

Section Rest.
Variable ab : body.
Hypothesis T : tree_ok ab.
Hypothesis Z : at_rest ab.
Let n := ab_dof ab.
Definition kept (a : body) : Prop := exists c, a = set_cache ab (Some c) /\ wfc a.
Lemma kept_tree a : kept a -> tree_ok a.
Proof. intros (c & -> & _). apply tree_set_cache; auto. Qed.
Lemma seq_res_same {A} (f : nat -> res A) (g : nat -> A) l : (forall x, In x l -> f x = Ok (g x)) -> seq_res (map f l) = Ok (map g l).
Proof. induction l as [|x l IH]; intros H; cbn; auto. rewrite (H x) by (left; auto). cbn [bind]. rewrite IH by (intros; apply H; right; auto). reflexivity. Qed.
Lemma put_kept io a q dq : (i_limits io = true -> in_limits ab) -> kept a -> q = ab_q ab -> dq = ab_dq ab ->
  exists a', put io q dq a = Ok a' /\ kept a'.
Proof.
  intros HL Ka -> ->. pose proof (kept_tree a Ka) as Ta. destruct Ka as (c & -> & W).
  assert (Lq : List.length (ab_q ab) = n) by apply T. assert (Ld : List.length (ab_dq ab) = n) by apply T.
  assert (CQ : (if i_limits io then clip_q (set_cache ab (Some c)) (ab_q ab) else Ok (ab_q ab)) = Ok (ab_q ab)).
  { destruct (i_limits io); auto. unfold clip_q. rewrite (seq_res_same _ (fun i => qk (ab_q ab) i)).
    - f_equal. symmetry. apply (list_eq_vec (ab_q ab) n Lq).
    - intros i Hi. apply in_seq in Hi. destruct (HL eq_refl i ltac:(cbn in Hi; lia)) as [A B]. unfold clip_q1.
      change (rb_joint (rb_at (set_cache ab (Some c)) i)) with (rb_joint (nth i (ab_rbs ab) rb_default)).
      change (qk (ab_q ab) i) with (coef (ab_q ab) i). rewrite A, B. reflexivity. }
  assert (X : exists a', put io (ab_q ab) (ab_dq ab) (set_cache ab (Some c)) = Ok a' /\ exists c', a' = set_cache ab (Some c')).
  { unfold put. rewrite CQ. cbn [bind].
    assert (X1 : exists c1, called (set_q (ab_q ab) (set_cache ab (Some c))) = Ok (set_cache ab (Some c1))).
    { unfold set_q. cbn [ab_q ab_dof set_cache ab_cache]. unfold n in *. rewrite Lq, Nat.eqb_refl. cbn [negb]. destruct (veqb _ _); cbn [called]; eexists; destruct ab; reflexivity. }
    destruct X1 as [c1 X1]. rewrite X1. cbn [bind].
    assert (CD : (if i_limits io then clip_dq (set_cache ab (Some c1)) (ab_dq ab) else ab_dq ab) = ab_dq ab).
    { destruct (i_limits io); auto. unfold clip_dq. transitivity (vec n (fun i => qk (ab_dq ab) i)); [|symmetry; apply list_eq_vec; auto].
      apply vec_ext. intros i Hi. unfold clip_dq1. match goal with |- (if ?b then _ else _) = _ => destruct b end; auto. symmetry. apply (Z i Hi). }
    rewrite CD. unfold set_dq. cbn [ab_q ab_dq ab_dof set_cache ab_cache]. unfold n in *. rewrite Ld, Nat.eqb_refl. cbn [negb]. destruct (veqb _ _); cbn [called]; eexists; (split; [reflexivity|]); eexists; destruct ab; reflexivity. }
  destruct X as (a' & E & c' & ->). exists (set_cache ab (Some c')). split; [exact E|]. exists c'. split; [auto|]. exact (inv_put _ _ _ _ _ W E).
Qed.

Variable fd : body -> res (body * list K).
Variable X : body -> Prop.
Hypothesis XP : forall io q dq a a', X a -> put io q dq a = Ok a' -> X a'.
Definition keptx (a : body) : Prop := kept a /\ X a.
Lemma put_keptx io a q dq : (i_limits io = true -> in_limits ab) -> keptx a -> q = ab_q ab -> dq = ab_dq ab ->
  exists a', put io q dq a = Ok a' /\ keptx a'.
Proof. intros HL [Ka Xa] Eq Ed. destruct (put_kept io a q dq HL Ka Eq Ed) as (a' & E & K'). exists a'. split; [exact E|]. split; [exact K'|eauto]. Qed.
Hypothesis F : forall a, keptx a -> exists a' x, fd a = Ok (a', x) /\ keptx a' /\ forall i, (i < n)%nat -> qk x i = 0.
Lemma integrate_keptx io dt a : (i_limits io = true -> in_limits ab) -> keptx a -> exists a', integrate fd io dt a = Ok a' /\ keptx a'.
Proof.
  intros HL Ka.
  assert (Lq : List.length (ab_q ab) = n) by apply T. assert (Ld : List.length (ab_dq ab) = n) by apply T.
  assert (Q : forall a, keptx a -> ab_q a = ab_q ab /\ ab_dq a = ab_dq ab /\ ab_dof a = n) by (intros b [(? & -> & _) _]; auto).
  assert (Zq : forall i, (i < n)%nat -> qk (ab_dq ab) i = 0) by (intros i Hi; apply (Z i Hi)).
  unfold integrate. destruct (Q a Ka) as (Qa & Da & Na). rewrite Qa, Da, Na.
  assert (PS : forall b f g, keptx b -> (forall i, (i < n)%nat -> f i = qk (ab_q ab) i) -> (forall i, (i < n)%nat -> g i = 0) ->
    exists b', put io (vlin n f) (vlin n g) b = Ok b' /\ keptx b').
  { intros b f g Kb Hf Hg. apply put_keptx; auto; unfold vlin.
    - rewrite (list_eq_vec (ab_q ab) n Lq). apply vec_ext. auto.
    - rewrite (list_eq_vec (ab_dq ab) n Ld). apply vec_ext. intros i Hi. rewrite Hg, Zq by auto. auto. }
  destruct (F a Ka) as (a1 & x1 & -> & K1 & Z1). cbn [bind].
  destruct (i_method io).
  - apply PS; auto; intros i Hi; rewrite ?Z1, ?Zq by auto; ring.
  - match goal with |- context [put io (vlin n ?f) (vlin n ?g) a1] => destruct (PS a1 f g K1) as (a2 & -> & K2); [intros i Hi; rewrite ?Z1, ?Zq by auto; ring..|] end.
    cbn [bind]. destruct (Q a2 K2) as (_ & D2 & _). rewrite D2. destruct (F a2 K2) as (a3 & x3 & -> & K3 & Z3). cbn [bind].
    apply PS; auto; intros i Hi; rewrite ?Z1, ?Z3, ?Zq by auto; ring.
  - match goal with |- context [put io (vlin n ?f) (vlin n ?g) a1] => destruct (PS a1 f g K1) as (a2 & -> & K2); [intros i Hi; rewrite ?Z1, ?Zq by auto; ring..|] end.
    cbn [bind]. destruct (Q a2 K2) as (_ & D2 & _). rewrite D2. destruct (F a2 K2) as (a3 & x3 & -> & K3 & Z3). cbn [bind].
    match goal with |- context [put io (vlin n ?f) (vlin n ?g) a3] => destruct (PS a3 f g K3) as (a4 & -> & K4); [intros i Hi; rewrite ?Z3, ?Zq by auto; ring..|] end.
    cbn [bind]. destruct (Q a4 K4) as (_ & D4 & _). rewrite D4. destruct (F a4 K4) as (a5 & x5 & -> & K5 & Z5). cbn [bind].
    match goal with |- context [put io (vlin n ?f) (vlin n ?g) a5] => destruct (PS a5 f g K5) as (a6 & -> & K6); [intros i Hi; rewrite ?Z5, ?Zq by auto; ring..|] end.
    cbn [bind]. destruct (Q a6 K6) as (_ & D6 & _). rewrite D6. destruct (F a6 K6) as (a7 & x7 & -> & K7 & Z7). cbn [bind].
    apply PS; auto; intros i Hi; rewrite ?Z1, ?Z3, ?Z5, ?Z7, ?Zq by auto; rewrite !(Fdiv_def kfield); ring.
Qed.
End Rest.
Lemma integrate_kept (ab : body) (T : tree_ok ab) (Z : at_rest ab) (fd : body -> res (body * list K)) :
  (forall a, kept ab a -> exists a' x, fd a = Ok (a', x) /\ kept ab a' /\ forall i, (i < ab_dof ab)%nat -> qk x i = 0) ->
  forall io dt a, (i_limits io = true -> in_limits ab) -> kept ab a -> exists a', integrate fd io dt a = Ok a' /\ kept ab a'.
Proof.
  intros F io dt a HL Ka. destruct (integrate_keptx ab T Z fd (fun _ => True) (fun _ _ _ _ _ _ _ => I)) with (io := io) (dt := dt) (a := a) as (a' & E & K' & _); auto; [|split; auto|eauto].
  intros b [Kb _]. destruct (F b Kb) as (b' & x & E & K' & H). exists b', x. split; [auto|]. split; [split|]; auto.
Qed.
End Gen.

(** *** Forward dynamics in balance *)
Section Balance.
Context {S : Scal} {L : ScalLaws S} {PL : PosLaws S} {ES : EqSound S}.
Add Field kf2 : (@kfield S L).
Local Open Scope k_scope.
Variable solve : list (list K) -> list K -> list K.
Variable pinv : list (list K) -> K -> list (list K) * bool.
#[local] Instance comm_hold : AddComm S := laws_comm.

Lemma kept_self (ab : body) : wfc ab -> kept ab ab.
Proof. intros (c & E & V). exists c. split; [destruct ab; cbn in *; subst; reflexivity|]. exists c. auto. Qed.

Section Robot.
Variable ab : body.
Hypothesis T : tree_ok ab.
Hypothesis W : wfc ab.
Hypothesis P : proper ab.
Variable A : list (list K).
Hypothesis HA : outcome (ask solve pinv QInertia ab) = Ok (AMat A).
Hypothesis SO : solver_ok solve (ab_dof ab) A.
Hypothesis IJ : injective (ab_dof ab) A.
Lemma A_is : A = mat (ab_dof ab) (ab_dof ab) (Av ab).
Proof. cbn [ask] in HA. rewrite outcome_wrap, (out_Inertia ab T W) in HA. cbn in HA. inversion HA. auto. Qed.
(** No torque is left over: no acceleration. *)
Lemma fd_zero tau fe o a : kept ab a -> List.length tau = ab_dof ab -> (forall i, (i < ab_dof ab)%nat -> fd_rhs ab tau fe o i = 0) ->
  exists a' x, sim_fd solve false tau fe o a = Ok (a', x) /\ kept ab a' /\ forall i, (i < ab_dof ab)%nat -> qk x i = 0.
Proof.
  intros Ka Lt Hz. pose proof (kept_tree ab T a Ka) as Ta. destruct Ka as (c & Ea & Wa).
  assert (Pa : proper a) by (subst a; destruct P; constructor; auto).
  pose proof (out_FD solve a Ta Wa tau fe o Pa) as X. assert (Da : ab_dof a = ab_dof ab) by (subst; reflexivity). rewrite Da, Lt, Nat.eqb_refl in X.
  destruct (out_ok _ _ X) as [a' E]. exists a'. eexists. split; [unfold sim_fd; exact E|]. split.
  - destruct (sim_fd_frame solve pinv false tau fe o a a' _ E) as [c' E']. exists c'. split; [subst; reflexivity|].
    eapply (sim_fd_inv solve pinv false); [exact Ta|exact Wa|exact E].
  - assert (EA : mat (ab_dof ab) (ab_dof ab) (Av a) = A) by (rewrite A_is; subst a; reflexivity). rewrite EA.
    assert (ER : vec (ab_dof ab) (fd_rhs a tau fe o) = vec (ab_dof ab) (fun _ : nat => 0)).
    { apply vec_ext. intros i Hi. subst a. exact (Hz i Hi). }
    rewrite ER. destruct (SO (vec (ab_dof ab) (fun _ : nat => 0)) (vec_length _ _)) as [S1 S2]. apply IJ; auto. intros i Hi. rewrite S2, coef_vec by auto. auto.
Qed.
Lemma integrated_kept tau fe o steps : List.length tau = ab_dof ab -> at_rest ab -> (forall i, (i < ab_dof ab)%nat -> fd_rhs ab tau fe o i = 0) ->
  (forall io dt, In (io, dt) steps -> i_limits io = true -> in_limits ab) ->
  forall a, kept ab a -> exists a', integrated solve false tau fe o steps a = Ok a' /\ kept ab a'.
Proof.
  intros Lt Z Hz. induction steps as [|[io dt] steps IH]; intros HL a Ka; [cbn; eauto|]. cbn [integrated].
  destruct (integrate_kept ab T Z (sim_fd solve false tau fe o) (fun b Kb => fd_zero tau fe o b Kb Lt Hz) io dt a) as (a1 & -> & K1); auto.
  { apply (HL io dt). left; auto. }
  cbn [bind]. apply IH; auto. intros io' dt' H. apply (HL io' dt'). right; auto.
Qed.
End Robot.

(** Torques that balance gravity and the external forces. *)
Lemma c58_balance h ab A G E tau fe o steps : reached solve pinv h ab -> base_fixed false h = true -> proper ab ->
  outcome (ask solve pinv QInertia ab) = Ok (AMat A) -> solver_ok solve (ab_dof ab) A -> injective (ab_dof ab) A ->
  outcome (ask solve pinv QGrav ab) = Ok (AVec G) -> outcome (ask solve pinv (QExt fe) ab) = Ok (AVec E) ->
  at_rest ab -> o_fric o = false -> List.length tau = ab_dof ab ->
  (forall i, (i < ab_dof ab)%nat -> coef tau i = coef E i + (if o_grav o then coef G i else 0)) ->
  (forall io dt, In (io, dt) steps -> i_limits io = true -> in_limits ab) ->
  exists ab', integrated solve false tau fe o steps ab = Ok ab' /\ unmoved ab ab'.
Proof.
  intros R B P HA SO IJ HG HE Z Ho Lt Ht HL. destruct (reached_wfc solve pinv h ab R B) as [T W].
  cbn [ask] in HG, HE. rewrite outcome_wrap, (out_Grav ab T W) in HG. rewrite outcome_wrap, (out_Ext ab T W) in HE. cbn in HG, HE. inversion HG; subst G. inversion HE; subst E. clear HG HE.
  destruct (integrated_kept ab T W P A HA SO IJ tau fe o steps Lt Z) with (a := ab) as (a' & E & (c & -> & _)); auto.
  - intros i Hi. unfold fd_rhs. rewrite Ho. cbn zeta. specialize (Ht i Hi). rewrite !coef_vec in Ht by auto. change (coef tau i) with (qk tau i) in Ht. rewrite Ht.
    rewrite (Cv_still ab i T (pr_rigid _ P) Z Hi). destruct (o_grav o), (o_cc o); ring.
  - apply kept_self; auto.
  - eexists. split; [exact E|]. exists c. auto.
Qed.
End Balance.

(** *** The controllers *)
Section Loops.
Context {S : Scal} {L : ScalLaws S} {PL : PosLaws S} {ES : EqSound S}.
Add Field kf3 : (@kfield S L).
Local Open Scope k_scope.
Variable solve : list (list K) -> list K -> list K.
Variable pinv : list (list K) -> K -> list (list K) * bool.
#[local] Instance comm_loops : AddComm S := laws_comm.

Definition undt (k : controller) : controller :=
  Controller (c_pos k) (c_ori k) (c_joint k) (c_off k) (c_rot k) (c_x k) (c_dx k) (c_ori_t k) (c_w k) (c_gravity k) 0.
Lemma compute_split k ab : compute_opspace_control solve pinv k ab =
  bind (compute_opspace_control solve pinv (undt k) ab) (fun '(a, (tau, st)) =>
    if klt 0 (c_dt k) then bind (integrate (sim_fd solve false tau no_force (IdOpts true true false (klit 1 100))) (IntOpts false MRk4) (c_dt k) a) (fun a => Ok (a, (tau, st)))
    else Ok (a, (tau, st))).
Proof.
  unfold compute_opspace_control. cbn [undt c_pos c_ori c_joint c_off c_rot c_x c_dx c_ori_t c_w c_gravity c_dt]. rewrite klt_00.
  destruct (q_Jacobian (-1) (c_off k) ab) as [[a1 cols]| |]; [|reflexivity..]. cbn [bind].
  destruct (q_Position (-1) (c_off k) a1) as [[a2 x]| |]; [|reflexivity..]. cbn [bind].
  destruct (c_pos k x _) as [ddx xe].
  destruct (q_Orientation (-1) a2) as [[a3 R]| |]; [|reflexivity..]. cbn [bind].
  destruct (c_ori k R _) as [dw oe].
  destruct (main_task solve pinv _ ddx dw a3) as [[a4 [[[N t1] s6] s3]]| |]; [|reflexivity..]. cbn [bind].
  destruct (q_ops_InverseDynamics solve pinv _ _ N no_force true ops_default a4) as [[a5 [N' t2]]| |]; [|reflexivity..]. cbn [bind].
  destruct (if c_gravity k then _ else _) as [[a6 tau]| |]; reflexivity.
Qed.
Lemma oid_zero h a J ddx N N' t : reached solve pinv h a -> base_fixed false h = true -> one_threshold 0 h -> (forall i, coef ddx i = 0) ->
  outcome (ask solve pinv (QoID J ddx N (fun _ => None) true (OpsOpts false false false 0 (klit 1 100) 0)) a) = Ok (ANull N' t) ->
  forall i, (i < ab_dof a)%nat -> coef t i = 0.
Proof.
  intros R B OT Hz E i Hi. destruct (reached_wfc solve pinv h a R B) as [T W]. pose proof (reached_wop solve pinv (Some 0) h a R B (oone_some 0 h OT)) as O1.
  cbn [ask] in E. unfold wrap in E. change (fun _ : nat => None) with no_force in E.
  pose proof (out_oID solve pinv a T W 0 O1 J ddx N no_force true (OpsOpts false false false 0 (klit 1 100) 0) eq_refl ltac:(auto)) as X.
  destruct (oid_pre a J ddx N); [|destruct (q_ops_InverseDynamics _ _ _ _ _ _ _ _ _) as [[? ?]| |]; discriminate].
  unfold oid_val in X. cbn [p_cc bind] in X. destruct (out_ok _ _ X) as [a' Y]. rewrite Y in E. cbn in E. inversion E; subst; clear E X Y.
  change (@coef S) with (@qk S). rewrite lmulv_coef by auto. apply ksum_zero. intros k Hk.
  unfold oid_F1, oid_F0. cbn [p_fric p_grav p_facc]. unfold clip_force. rewrite klt_00.
  assert (X : forall r m M, qk (lmulv r m M ddx) k = 0).
  { intros r m M. unfold lmulv, qk. destruct (Nat.ltb_spec k r) as [Hl|Hl].
    - rewrite nth_vec by auto. apply ksum_zero. intros j Hj. change (nth j ddx 0) with (coef ddx j). rewrite Hz. ring.
    - apply nth_overflow. rewrite vec_length. auto. }
  rewrite X. ring.
Qed.

Lemma base_fixed_last hh x1 x2 x3 x4 x5 x6 : forall b, base_fixed b (hh ++ [OIntegrate x1 x2 x3 x4 x5 x6]) = base_fixed b hh.
Proof. induction hh as [|o hh IH]; intros b; [reflexivity|]. destruct o; cbn; rewrite ?IH; auto. Qed.

Section Ops.
Variables (h : list op) (ab : body) (k : controller) (A : list (list K)) (G : list K).
Hypothesis R : reached solve pinv h ab.
Hypothesis B : base_fixed false h = true.
Hypothesis OT : one_threshold 0 h.
Hypothesis P : proper ab.
Hypothesis HA : outcome (ask solve pinv QInertia ab) = Ok (AMat A).
Hypothesis SO : solver_ok solve (ab_dof ab) A.
Hypothesis IJ : injective (ab_dof ab) A.
Hypothesis HG : outcome (ask solve pinv QGrav ab) = Ok (AVec G).
Hypothesis N : (0 < ab_dof ab)%nat.
Hypothesis L1 : forall x dx, List.length (fst (c_pos k x dx)) = 3%nat.
Hypothesis L2 : forall R w, List.length (fst (c_ori k R w)) = 3%nat.
Hypothesis L3 : forall q dq, List.length (c_joint k q dq) = ab_dof ab.
Hypothesis Z : at_rest ab.
Hypothesis AG : at_goal solve pinv k ab.
Hypothesis GC : c_gravity k = true \/ forall i, (i < ab_dof ab)%nat -> coef G i = 0.

Lemma G_is : G = vec (ab_dof ab) (Gv ab).
Proof. destruct (reached_wfc solve pinv h ab R B) as [T W]. pose proof HG as X. cbn [ask] in X. rewrite outcome_wrap, (out_Grav ab T W) in X. cbn in X. inversion X. auto. Qed.
Lemma coef_rep (m i : nat) : coef (repeat (0 : K) m) i = 0.
Proof. unfold coef. revert i. induction m; intros [|i]; cbn; auto. Qed.
Lemma rate_rest row : rate (ab_dof ab) (ab_dq ab) row = 0.
Proof. rewrite rate_ksum. apply ksum_zero. intros j Hj. rewrite (Z j Hj). ring. Qed.

Lemma ops_call a : on solve pinv ab a -> exists a' tau st, compute_opspace_control solve pinv k a = Ok (a', (tau, st)) /\ on solve pinv ab a' /\
  List.length tau = ab_dof ab /\ forall i, (i < ab_dof ab)%nat -> coef tau i = coef G i.
Proof.
  intros O. pose proof (on_start solve pinv h ab R B OT) as O0. pose proof O as (ha & ca & Ra & Ba & OTa & Ea).
  assert (Na : ab_dof a = ab_dof ab) by (subst a; reflexivity). assert (Da : ab_dq a = ab_dq ab) by (subst a; reflexivity). assert (Qa : ab_q a = ab_q ab) by (subst a; reflexivity).
  destruct (c44_total solve pinv ha a (undt k) Ra Ba OTa) as (a1 & tau & st & E); cbn [undt c_pos c_ori c_joint c_dt]; auto; try (rewrite Na; auto). 1:apply klt_00.
  destruct (control_reads solve pinv ha a (undt k) a1 tau st Ra Ba OTa E) as (r & RD & _ & Et & a1' & O1 & EI). cbn [undt c_dt c_gravity] in EI, Et. rewrite klt_00 in EI. subst a1'.
  destruct (reads_lengths solve pinv ha (undt k) a r Ra Ba RD) as (M1 & M2 & M3 & _). cbn [undt c_gravity] in M3.
  assert (FR : forall q (mem : cache), plain q -> outcome (ask solve pinv q a) = outcome (ask solve pinv q ab)).
  { intros q mem PQ. rewrite (on_cold solve pinv ab a q mem O PQ), (on_cold solve pinv ab ab q mem O0 PQ). reflexivity. }
  assert (X1 : r_dx r = [0; 0; 0]) by (rewrite (reads_dx _ _ _ _ _ RD), Na, Da; destruct (reads_J _ _ _ _ _ RD) as (cols & _ & ->); cbn [task_rows map firstn]; rewrite !rate_rest; reflexivity).
  assert (X2 : r_w r = [0; 0; 0]) by (rewrite (reads_w _ _ _ _ _ RD), Na, Da; destruct (reads_J _ _ _ _ _ RD) as (cols & _ & ->); cbn [task_rows map skipn]; rewrite !rate_rest; reflexivity).
  destruct AG as (G1 & G2 & G3).
  assert (Y1 : fst (c_pos k (r_x r) (r_dx r)) = [0; 0; 0]).
  { rewrite X1. apply G1. rewrite <- (FR (QPos (-1) (c_off k)) ca) by (split; [intros ? []|auto]). exact (reads_x _ _ _ _ _ RD). }
  assert (Y2 : fst (c_ori k (r_R r) (r_w r)) = [0; 0; 0]).
  { rewrite X2. apply G2. rewrite <- (FR (QOri (-1)) ca) by (split; [intros ? []|auto]). exact (reads_R _ _ _ _ _ RD). }
  assert (Y3 : forall i, coef (goal_acc (undt k) r) i = 0).
  { intros i. unfold goal_acc. cbn [undt c_pos c_ori]. cbn zeta. rewrite Y1, Y2. destruct (r_s6 r); cbn [app]; do 7 (destruct i as [|i]; [reflexivity|]); destruct i; reflexivity. }
  pose proof (oid_zero ha a _ _ _ _ _ Ra Ba OTa Y3 (reads_main _ _ _ _ _ RD)) as Z1.
  destruct (reads_joint _ _ _ _ _ RD) as [N' RJ]. cbn [undt c_joint] in RJ. rewrite Qa, Da, G3 in RJ.
  pose proof (oid_zero ha a _ _ _ _ _ Ra Ba OTa (coef_rep (ab_dof ab)) RJ) as Z2.
  pose proof (vadd_length _ _ _ M1 M2) as M12.
  assert (LT : List.length tau = ab_dof ab) by (subst tau; rewrite <- Na; destruct (c_gravity k); [apply vadd_length; auto|auto]).
  assert (CT : forall i, (i < ab_dof ab)%nat -> coef tau i = coef G i).
  { intros i Hi. pose proof (Z1 i ltac:(rewrite Na; auto)) as Z1i. pose proof (Z2 i ltac:(rewrite Na; auto)) as Z2i. subst tau. change (@coef S) with (@qk S) in *. destruct (c_gravity k) eqn:CG.
    - rewrite (coef_vadd (ab_dof a)), (coef_vadd (ab_dof a)), Z1i, Z2i by (auto; rewrite Na; auto).
      pose proof (reads_grav _ _ _ _ _ RD) as RG. cbn [undt c_gravity] in RG. rewrite CG in RG. rewrite (FR QGrav ca) in RG by (split; [intros ? []|auto]). rewrite HG in RG. inversion RG. ring.
    - rewrite (coef_vadd (ab_dof a)), Z1i, Z2i by (auto; rewrite Na; auto). destruct GC as [|GZ]; [discriminate|]. rewrite GZ by auto. ring. }
  rewrite compute_split, E. cbn [bind].
  assert (O1' : on solve pinv ab a1).
  { destruct O1 as (h1 & c1 & R1 & B1 & OT1 & E1). exists h1, c1. split; [auto|split; [auto|split; [auto|]]]. rewrite E1, Ea. reflexivity. }
  destruct (klt 0 (c_dt k)); [|exists a1, tau, st; split; [reflexivity|]; auto].
  destruct (reached_wfc solve pinv h ab R B) as [T W]. destruct O1' as (h1 & c1 & R1 & B1 & OT1 & E1).
  assert (K1 : kept ab a1) by (exists c1; split; [exact E1|]; apply (reached_wfc solve pinv h1 a1 R1 B1)).
  assert (FZ : forall i, (i < ab_dof ab)%nat -> fd_rhs ab tau no_force (IdOpts true true false (klit 1 100)) i = 0).
  { intros i Hi. unfold fd_rhs. cbn [o_fric o_cc o_grav]. cbn zeta. change (qk tau i) with (coef tau i). rewrite (CT i Hi), G_is, coef_vec by auto.
    rewrite (Cv_still ab i T (pr_rigid _ P) Z Hi), (ext_none' ab no_force T P ltac:(reflexivity) i Hi). ring. }
  destruct (integrate_kept ab T Z (sim_fd solve false tau no_force (IdOpts true true false (klit 1 100))) (fun b Kb => fd_zero solve pinv ab T W P A HA SO IJ tau no_force _ b Kb LT FZ) (IntOpts false MRk4) (c_dt k) a1 ltac:(discriminate) K1) as (a2 & EI' & (c2 & E2 & _)).
  rewrite EI'. cbn [bind]. exists a2, tau, st. split; [reflexivity|]. split; [|auto].
  exists (h1 ++ [OIntegrate false tau no_force (IdOpts true true false (klit 1 100)) (IntOpts false MRk4) (c_dt k)]), c2. split; [|split; [|split; [|exact E2]]].
  - destruct R1 as (name & mem & R1). exists name, mem.
    assert (X : forall o h a b, run solve pinv h a = Some b -> run solve pinv (h ++ [o]) a = run solve pinv [o] b).
    { clear. intros o hh. induction hh as [|o' hh IH]; intros a b H; cbn [app run] in *; [inversion H; reflexivity|]. destruct (step solve pinv o' a); [apply IH; auto|discriminate]. }
    rewrite (X _ _ _ _ R1). cbn [run step]. rewrite EI'. reflexivity.
  - rewrite base_fixed_last. exact B1.
  - intros q y H. apply in_app_iff in H. destruct H as [H|[H|[]]]; [exact (OT1 q y H)|discriminate].
Qed.
Lemma c58_opspace n : exists ab' l, repeated (compute_opspace_control solve pinv k) n ab = Ok (ab', l) /\ unmoved ab ab' /\
  List.length l = n /\ Forall (fun '(tau, st) => List.length tau = ab_dof ab /\ forall i, (i < ab_dof ab)%nat -> coef tau i = coef G i) l.
Proof.
  assert (X : forall a, on solve pinv ab a -> exists ab' l, repeated (compute_opspace_control solve pinv k) n a = Ok (ab', l) /\ on solve pinv ab ab' /\
    List.length l = n /\ Forall (fun '(tau, st) => List.length tau = ab_dof ab /\ forall i, (i < ab_dof ab)%nat -> coef tau i = coef G i) l).
  { induction n as [|m IH]; intros a O; [exists a, []; repeat split; auto|]. destruct (ops_call a O) as (a1 & tau & st & E & O1 & LT & CT).
    destruct (IH a1 O1) as (a2 & l & E2 & O2 & LL & FL). exists a2, ((tau, st) :: l). cbn [repeated]. rewrite E. cbn [bind]. rewrite E2. cbn [bind].
    split; [reflexivity|]. split; [auto|]. split; [cbn; congruence|]. constructor; auto. }
  destruct (X ab (on_start solve pinv h ab R B OT)) as (ab' & l & E & (h' & c & _ & _ & _ & E') & HL). exists ab', l. split; [auto|]. split; [exists c; exact E'|exact HL].
Qed.
End Ops.

Section Joint.
Variables (h : list op) (ab : body) (pd : list K -> list K -> list K -> list K * list K) (joint : option (list K)) (threshold : option (K * K)) (grav : bool) (A : list (list K)) (G : list K).
Hypothesis R : reached solve pinv h ab.
Hypothesis B : base_fixed false h = true.
Hypothesis P : proper ab.
Hypothesis HA : outcome (ask solve pinv QInertia ab) = Ok (AMat A).
Hypothesis SO : solver_ok solve (ab_dof ab) A.
Hypothesis IJ : injective (ab_dof ab) A.
Hypothesis HG : outcome (ask solve pinv QGrav ab) = Ok (AVec G).
Hypothesis Z : at_rest ab.
Hypothesis AG : fst (pd (ab_q ab) (match joint with Some q => q | None => ab_q ab end) (ab_dq ab)) = repeat 0 (ab_dof ab).
Hypothesis GC : grav = true \/ forall i, (i < ab_dof ab)%nat -> coef G i = 0.
Let T : tree_ok ab := proj1 (reached_wfc solve pinv h ab R B).
Let W : wfc ab := proj2 (reached_wfc solve pinv h ab R B).

Lemma js_call st a : kept ab a -> exists a' tau c, joint_space_control solve pd joint threshold grav st a = Ok (a', (tau, c)) /\ kept ab a' /\
  List.length tau = ab_dof ab /\ forall i, (i < ab_dof ab)%nat -> coef tau i = coef G i.
Proof.
  intros Ka. pose proof (kept_tree ab T a Ka) as Ta. pose proof Ka as (ca & Ea & Wa).
  assert (Na : ab_dof a = ab_dof ab) by (subst a; reflexivity). assert (Da : ab_dq a = ab_dq ab) by (subst a; reflexivity). assert (Qa : ab_q a = ab_q ab) by (subst a; reflexivity).
  assert (Pa : proper a) by (subst a; destruct P; constructor; auto).
  unfold joint_space_control. rewrite Qa, Da. destruct (pd _ _ _) as [ddq err]. cbn [fst] in AG. rewrite AG.
  pose proof (out_ID a Ta Wa (repeat 0 (ab_dof ab)) no_force (IdOpts grav false false (klit 1 100)) Pa) as X. rewrite repeat_length, Na, Nat.eqb_refl in X.
  destruct (out_ok _ _ X) as [a1 E]. rewrite E. cbn [bind].
  set (tau := vec (ab_dof ab) _) in *.
  assert (LT : List.length tau = ab_dof ab) by apply vec_length.
  assert (CT : forall i, (i < ab_dof ab)%nat -> coef tau i = coef G i).
  { intros i Hi. unfold tau. rewrite coef_vec by auto. unfold plus_friction, id_base. cbn [o_fric o_cc o_grav]. unfold mat_vec. rewrite ksum_zero.
    2:{ intros j Hj. change (qk (repeat 0 (ab_dof ab)) j) with (coef (repeat (0 : K) (ab_dof ab)) j). rewrite coef_rep. ring. }
    rewrite (ext_none' a no_force Ta Pa ltac:(reflexivity) i ltac:(rewrite Na; auto)).
    pose proof (G_is h ab G R B HG) as EG. rewrite EG, coef_vec by auto. destruct grav eqn:Eg.
    - subst a. change (Gv (set_cache ab (Some ca)) i) with (Gv ab i). ring.
    - destruct GC as [|GZ]; [discriminate|]. specialize (GZ i Hi). rewrite EG, coef_vec in GZ by auto. rewrite GZ. ring. }
  assert (K1 : kept ab a1).
  { assert (Y : ask solve pinv (QID (repeat 0 (ab_dof ab)) no_force (IdOpts grav false false (klit 1 100))) a = Ok (a1, AVec tau)) by (cbn [ask]; rewrite E; reflexivity).
    destruct (ask_frame solve pinv _ _ _ _ Y) as [c1 E1]. exists c1. split; [subst; reflexivity|]. exact (ask_inv solve pinv _ _ _ _ Ta Wa Y). }
  destruct st as [dt|]; [|eexists a1, tau, _; split; [reflexivity|]; auto].
  assert (FZ : forall i, (i < ab_dof ab)%nat -> fd_rhs ab tau no_force (IdOpts true true false (klit 1 100)) i = 0).
  { intros i Hi. unfold fd_rhs. cbn [o_fric o_cc o_grav]. cbn zeta. change (qk tau i) with (coef tau i). rewrite (CT i Hi), (G_is h ab G R B HG), coef_vec by auto.
    rewrite (Cv_still ab i T (pr_rigid _ P) Z Hi), (ext_none' ab no_force T P ltac:(reflexivity) i Hi). ring. }
  destruct (integrate_kept ab T Z (sim_fd solve false tau no_force (IdOpts true true false (klit 1 100))) (fun b Kb => fd_zero solve pinv ab T W P A HA SO IJ tau no_force _ b Kb LT FZ) (IntOpts false MRk4) dt a1 ltac:(discriminate) K1) as (a2 & EI' & K2).
  rewrite EI'. cbn [bind]. eexists a2, tau, _. split; [reflexivity|]. auto.
Qed.
Lemma c58_joint st n : exists ab' l, repeated (joint_space_control solve pd joint threshold grav st) n ab = Ok (ab', l) /\ unmoved ab ab' /\
  List.length l = n /\ Forall (fun '(tau, st) => List.length tau = ab_dof ab /\ forall i, (i < ab_dof ab)%nat -> coef tau i = coef G i) l.
Proof.
  assert (X : forall a, kept ab a -> exists ab' l, repeated (joint_space_control solve pd joint threshold grav st) n a = Ok (ab', l) /\ kept ab ab' /\
    List.length l = n /\ Forall (fun '(tau, st) => List.length tau = ab_dof ab /\ forall i, (i < ab_dof ab)%nat -> coef tau i = coef G i) l).
  { induction n as [|m IH]; intros a O; [exists a, []; repeat split; auto|]. destruct (js_call st a O) as (a1 & tau & c & E & O1 & LT & CT).
    destruct (IH a1 O1) as (a2 & l & E2 & O2 & LL & FL). exists a2, ((tau, c) :: l). cbn [repeated]. rewrite E. cbn [bind]. rewrite E2. cbn [bind].
    split; [reflexivity|]. split; [auto|]. split; [cbn; congruence|]. constructor; auto. }
  destruct (X ab (kept_self ab W)) as (ab' & l & E & (c & E' & _) & HL). exists ab', l. split; [auto|]. split; [exists c; exact E'|exact HL].
Qed.
End Joint.
End Loops.
