(** Proofs about the Python task controller. *)
From Coq Require Import List Arith ZArith Bool Lia Field.
From Verif Require Import Scalar Base Spatial Joint Body Kin InvDyn FwdDyn Opspace OpspaceAba Deriv Sim Ops Control Specs SpecCache SpecKin SpecDyn SpecOps SpecControl
  TreeProofs JointProofs CacheProofs CacheOps KinProofs WorldProofs BigSum DynProofs DynApi OpsCache OpsApi OpsAlg OpsTask.
Import ListNotations.

Section Gen.
Context {S : Scal} {AC : AddComm S} {ES : EqSound S}.
Local Open Scope k_scope.
Variable solve : list (list K) -> list K -> list K.
Variable pinv : list (list K) -> K -> list (list K) * bool.

Lemma base_fixed_ask h q : forall b, base_fixed b (h ++ [OAsk q]) = base_fixed b h.
Proof. induction h as [|o h IH]; intros b; [reflexivity|]. destruct o; cbn; rewrite ?IH; auto. Qed.

Definition on (ab0 ab : body) : Prop :=
  exists h c, reached solve pinv h ab /\ base_fixed false h = true /\ one_threshold 0 h /\ ab = set_cache ab0 (Some c).
Definition plain (q : query) : Prop :=
  (forall x, In x (thresholds q) -> x = 0) /\ (pose_query q = true \/ jacobian_query q = true \/ dynamics_query q = true \/ task_query q = true).
Lemma on_start h ab : reached solve pinv h ab -> base_fixed false h = true -> one_threshold 0 h -> on ab ab.
Proof.
  intros R B OT. destruct (reached_wfc solve pinv h ab R B) as [T (c & Ec & _)]. exists h, c. split; [auto|split; [auto|split; [auto|]]].
  destruct ab. cbn in *. subst. reflexivity.
Qed.
Lemma on_ask ab0 ab q ab' x : on ab0 ab -> (forall x, In x (thresholds q) -> x = 0) -> ask solve pinv q ab = Ok (ab', x) -> on ab0 ab'.
Proof.
  intros (h & c & R & B & OT & E) P A. destruct (ask_frame solve pinv _ _ _ _ A) as [c' E']. exists (h ++ [OAsk q]), c'. repeat split.
  - destruct R as (name & mem & R). exists name, mem. assert (X : forall h a b, run solve pinv h a = Some b -> run solve pinv (h ++ [OAsk q]) a = run solve pinv [OAsk q] b).
    { clear. induction h as [|o h IH]; intros a b H; cbn [app run] in *; [inversion H; reflexivity|]. destruct (step solve pinv o a); [apply IH; auto|discriminate]. }
    rewrite (X _ _ _ R). cbn [run step]. rewrite A. reflexivity.
  - rewrite base_fixed_ask. auto.
  - intros q' y H. apply in_app_iff in H. destruct H as [H|[H|[]]]; [apply OT; auto|]. inversion H; subst. apply P.
  - subst. reflexivity.
Qed.
Lemma on_cold ab0 ab q mem : on ab0 ab -> plain q -> outcome (ask solve pinv q ab) = outcome (ask solve pinv q (cold ab0 mem)).
Proof.
  intros (h & c & R & B & OT & E) [P K]. replace (cold ab0 mem) with (cold ab mem) by (subst; reflexivity).
  destruct K as [K|[K|[K|K]]]; [eapply c03_pose|eapply c03_jac_exact|eapply c04|eapply (c37_one solve pinv 0)]; eauto.
Qed.
Lemma on_out ab0 ab q ab' x : on ab0 ab0 -> on ab0 ab -> ask solve pinv q ab = Ok (ab', x) -> plain q ->
  on ab0 ab' /\ outcome (ask solve pinv q ab0) = Ok x.
Proof.
  intros O0 O A P. split; [apply (on_ask ab0 ab q ab' x); auto; apply P|]. destruct O0 as (h & c & H) eqn:X.
  rewrite (on_cold ab0 ab0 q c ltac:(exists h, c; exact H) P), <- (on_cold ab0 ab q c O P), A. reflexivity.
Qed.
Lemma rate_ksum n dq row : rate n dq row = ksum n (fun j => coef row j * coef dq j).
Proof.
  unfold rate. induction n; [reflexivity|]. rewrite seq_S, map_app, fold_left_app. cbn [map fold_left plus ksum]. rewrite IHn. reflexivity.
Qed.
Lemma rates_lmulv n dq rows m : List.length rows = m -> lmulv m n rows dq = map (rate n dq) rows.
Proof.
  intros <-. unfold lmulv. apply (nth_ext _ _ 0 0); [rewrite vec_length, map_length; auto|]. intros i Hi. rewrite vec_length in Hi.
  rewrite nth_vec by auto. rewrite (nth_indep (map _ _) 0 (rate n dq nil)) by (rewrite map_length; auto). rewrite map_nth, rate_ksum. reflexivity.
Qed.
Lemma rows_eq rot J : task_jacobian rot J = task_rows rot J.
Proof. unfold task_jacobian, task_rows, jac_rows, turned. destruct rot; cbn [map]; rewrite ?map_map; reflexivity. Qed.
Lemma identity_lid n : lid n = identity n.
Proof. reflexivity. Qed.
Lemma fold_left_map_sq (x : list K) : forall a, fold_left kadd (map (fun a => a * a) x) a = fold_left (fun s a => s + a * a) x a.
Proof. induction x; intros; cbn; auto. Qed.
Lemma converged_within t x : is_converged t x = true <-> within t x.
Proof.
  unfold is_converged, within, sq_norm. rewrite fold_left_map_sq. destruct (klt t 0); intuition discriminate.
Qed.

Lemma bits_status b0 b1 b2 b3 b4 b5 st :
  st = fold_left Z.lor [bit 0 b0; bit 1 b1; bit 2 b2; bit 3 b3; bit 4 b4; bit 5 b5] 0%Z ->
  (0 <= st < 64)%Z /\ Z.testbit st 0 = b0 /\ Z.testbit st 1 = b1 /\ Z.testbit st 2 = b2 /\ Z.testbit st 3 = b3 /\ Z.testbit st 4 = b4 /\ Z.testbit st 5 = b5.
Proof. intros ->. destruct b0, b1, b2, b3, b4, b5; vm_compute; intuition (auto; discriminate). Qed.

Lemma ask_oid J ddx N a a' N' t : q_ops_InverseDynamics solve pinv J ddx N no_force true ops_default a = Ok (a', (N', t)) ->
  ask solve pinv (QoID J ddx N (fun _ => None) true (OpsOpts false false false 0 (klit 1 100) 0)) a = Ok (a', ANull N' t).
Proof. intros H. cbn [ask]. unfold wrap. change (fun _ : nat => None) with no_force. fold ops_default. rewrite H. reflexivity. Qed.
(** What a successful run computed. *)
Lemma control_reads h ab k ab' tau st : reached solve pinv h ab -> base_fixed false h = true -> one_threshold 0 h ->
  compute_opspace_control solve pinv k ab = Ok (ab', (tau, st)) ->
  exists r, reads solve pinv k ab r /\ status_of k r st /\
    tau = (if c_gravity k then vadd (vadd (r_main r) (r_joint r)) (r_grav r) else vadd (r_main r) (r_joint r)) /\
    exists ab1, on ab ab1 /\
      if klt 0 (c_dt k) then integrate (sim_fd solve false tau no_force (IdOpts true true false (klit 1 100))) (IntOpts false MRk4) (c_dt k) ab1 = Ok ab' else ab' = ab1.
Proof.
  intros R B OT E. pose proof (on_start h ab R B OT) as O0. unfold compute_opspace_control in E.
  destruct (q_Jacobian (-1) (c_off k) ab) as [[ab1 cols]| |] eqn:E1; try discriminate. cbn [bind] in E.
  destruct (q_Position (-1) (c_off k) ab1) as [[ab2 x]| |] eqn:E2; try discriminate. cbn [bind] in E.
  destruct (c_pos k x _) as [ddx xe] eqn:Ep in E.
  destruct (q_Orientation (-1) ab2) as [[ab3 Rm]| |] eqn:E3; try discriminate. cbn [bind] in E.
  destruct (c_ori k Rm _) as [dw oe] eqn:Eo in E.
  destruct (main_task solve pinv _ ddx dw ab3) as [[ab4 [[[N t1] s6] s3]]| |] eqn:E4; try discriminate. cbn [bind] in E.
  destruct (q_ops_InverseDynamics solve pinv (lid (ab_dof ab)) _ N no_force true ops_default ab4) as [[ab5 [N' t2]]| |] eqn:E5; try discriminate. cbn [bind] in E.
  destruct (if c_gravity k then _ else _) as [[ab6 tau']| |] eqn:E6 in E; try discriminate. cbn [bind] in E.
  assert (A1 : ask solve pinv (QJac (-1) (c_off k)) ab = Ok (ab1, AMots cols)) by (cbn [ask]; rewrite E1; reflexivity).
  destruct (on_out ab ab _ _ _ O0 O0 A1 ltac:(split; [intros ? []|auto])) as [O1 A1'].
  assert (A2 : ask solve pinv (QPos (-1) (c_off k)) ab1 = Ok (ab2, AV3 x)) by (cbn [ask]; rewrite E2; reflexivity).
  destruct (on_out ab ab1 _ _ _ O0 O1 A2 ltac:(split; [intros ? []|auto])) as [O2 A2'].
  assert (A3 : ask solve pinv (QOri (-1)) ab2 = Ok (ab3, AM3 Rm)) by (cbn [ask]; rewrite E3; reflexivity).
  destruct (on_out ab ab2 _ _ _ O0 O2 A3 ltac:(split; [intros ? []|auto])) as [O3 A3'].
  assert (Q : forall a, on ab a -> ab_dq a = ab_dq ab /\ ab_q a = ab_q ab /\ ab_dof a = ab_dof ab) by (intros a (? & ? & _ & _ & _ & ->); auto).
  destruct (Q _ O1) as (Q1 & _), (Q _ O2) as (Q2 & _), (Q _ O3) as (Q3 & _ & D3).
  rewrite !rows_eq in E4, E, Ep, Eo. set (J := task_rows (c_rot k) cols) in *.
  assert (L3 : List.length (firstn 3 J) = 3%nat) by reflexivity. assert (L6 : List.length (skipn 3 J) = 3%nat) by reflexivity.
  rewrite Q2 in E, Ep. rewrite Q3 in E, Eo. rewrite !rates_lmulv in E by auto. rewrite rates_lmulv in Ep by auto. rewrite rates_lmulv in Eo by auto.
  set (dx := map (rate (ab_dof ab) (ab_dq ab)) (firstn 3 J)) in *. set (w := map (rate (ab_dof ab) (ab_dq ab)) (skipn 3 J)) in *.
  (* the main task *)
  assert (M : on ab ab4 /\ outcome (ask solve pinv (QoSing J (klit 1 100)) ab) = Ok (ABool s6) /\
    (if s6 then outcome (ask solve pinv (QoSing (firstn 3 J) (klit 1 100)) ab) = Ok (ABool s3) else s3 = false) /\
    outcome (ask solve pinv (QoID (if s6 then firstn 3 J else J) (if s6 then ddx else ddx ++ dw) (Some (identity (ab_dof ab))) (fun _ => None) true
                         (OpsOpts false false false 0 (klit 1 100) 0)) ab) = Ok (ANull N t1)).
  { unfold main_task in E4. rewrite D3 in E4. destruct (q_ops_IsSingular solve pinv J (klit 1 100) ab3) as [[a1 b6]| |] eqn:M1; try discriminate. cbn [bind] in E4.
    assert (B1 : ask solve pinv (QoSing J (klit 1 100)) ab3 = Ok (a1, ABool b6)) by (cbn [ask]; rewrite M1; reflexivity).
    destruct (on_out ab ab3 _ _ _ O0 O3 B1 ltac:(split; [intros ? []|auto])) as [Oa B1'].
    assert (TH : forall J ddx N, plain (QoID J ddx N (fun _ => None) true (OpsOpts false false false 0 (klit 1 100) 0))) by (intros; split; [intros ? [<-|[]]; reflexivity|auto]).
    destruct b6.
    - destruct (q_ops_InverseDynamics solve pinv (firstn 3 J) ddx (Some (lid (ab_dof ab))) no_force true ops_default a1) as [[a2 [Na ta]]| |] eqn:M2; try discriminate. cbn [bind] in E4.
      destruct (q_ops_IsSingular solve pinv (firstn 3 J) (klit 1 100) a2) as [[a3 b3]| |] eqn:M3; try discriminate. cbn [bind] in E4. inversion E4; subst a3 Na ta s6 b3; clear E4.
      assert (B2 : ask solve pinv (QoID (firstn 3 J) ddx (Some (identity (ab_dof ab))) (fun _ => None) true (OpsOpts false false false 0 (klit 1 100) 0)) a1 = Ok (a2, ANull N t1))
        by (apply ask_oid; exact M2).
      destruct (on_out ab a1 _ _ _ O0 Oa B2 (TH _ _ _)) as [Ob B2'].
      assert (B3 : ask solve pinv (QoSing (firstn 3 J) (klit 1 100)) a2 = Ok (ab4, ABool s3)) by (cbn [ask]; rewrite M3; reflexivity).
      destruct (on_out ab a2 _ _ _ O0 Ob B3 ltac:(split; [intros ? []|auto])) as [Oc B3']. auto.
    - destruct (q_ops_InverseDynamics solve pinv J (ddx ++ dw) (Some (lid (ab_dof ab))) no_force true ops_default a1) as [[a2 [Na ta]]| |] eqn:M2; try discriminate. cbn [bind] in E4.
      inversion E4; subst a2 Na ta s6 s3; clear E4.
      assert (B2 : ask solve pinv (QoID J (ddx ++ dw) (Some (identity (ab_dof ab))) (fun _ => None) true (OpsOpts false false false 0 (klit 1 100) 0)) a1 = Ok (ab4, ANull N t1))
        by (apply ask_oid; exact M2).
      destruct (on_out ab a1 _ _ _ O0 Oa B2 (TH _ _ _)) as [Ob B2']. auto. }
  destruct M as (O4 & MS & MT & MM).
  destruct (Q _ O4) as (Q4 & Q4' & D4). rewrite Q4, Q4' in E5.
  assert (A5 : ask solve pinv (QoID (identity (ab_dof ab)) (c_joint k (ab_q ab) (ab_dq ab)) N (fun _ => None) true (OpsOpts false false false 0 (klit 1 100) 0)) ab4 = Ok (ab5, ANull N' t2))
    by (apply ask_oid; exact E5).
  destruct (on_out ab ab4 _ _ _ O0 O4 A5 ltac:(split; [intros ? [<-|[]]; reflexivity|auto])) as [O5 A5'].
  assert (G : exists G, on ab ab6 /\ (if c_gravity k then outcome (ask solve pinv QGrav ab) = Ok (AVec G) else G = []) /\
    tau' = if c_gravity k then vadd (vadd t1 t2) G else vadd t1 t2).
  { destruct (c_gravity k).
    - destruct (q_Gravity ab5) as [[a g]| |] eqn:M1; try discriminate. cbn [bind] in E6. inversion E6; subst.
      assert (B1 : ask solve pinv QGrav ab5 = Ok (ab6, AVec g)) by (cbn [ask]; rewrite M1; reflexivity).
      destruct (on_out ab ab5 _ _ _ O0 O5 B1 ltac:(split; [intros ? []|auto])) as [Oa B1']. exists g. auto.
    - inversion E6; subst. exists []. auto. }
  destruct G as (G & O6 & G1 & G2).
  set (status := fold_left Z.lor _ 0%Z) in E.
  assert (E' : tau' = tau /\ status = st /\ if klt 0 (c_dt k) then integrate (sim_fd solve false tau no_force (IdOpts true true false (klit 1 100))) (IntOpts false MRk4) (c_dt k) ab6 = Ok ab' else ab' = ab6).
  { destruct (klt 0 (c_dt k)).
    - destruct (integrate _ _ _ ab6) as [a| |] eqn:EI in E; try discriminate. cbn [bind] in E. inversion E; subst. auto.
    - inversion E; subst. auto. }
  clear E. destruct E' as (-> & ES' & EI).
  exists (Reading J x Rm dx w s6 s3 N t1 t2 G). split; [|split; [|split]].
  - constructor; cbn [r_J r_x r_R r_dx r_w r_s6 r_s3 r_N r_main r_joint r_grav]; auto.
    + exists cols. auto.
    + unfold goal_rows, goal_acc. cbn [r_J r_x r_R r_dx r_w r_s6]. rewrite Ep, Eo. cbn [fst]. exact MM.
    + exists N'. auto.
  - unfold status_of. cbn [r_J r_x r_R r_dx r_w r_s6 r_s3]. rewrite Ep, Eo. cbn [snd].
    destruct (bits_status _ _ _ _ _ _ _ (eq_sym ES')) as (X & -> & -> & -> & -> & -> & ->). rewrite !converged_within. split; [auto|]. repeat (split; [reflexivity|]). reflexivity.
  - exact G2.
  - exists ab6. auto.
Qed.
End Gen.

Section Fun.
Context {S : Scal}.
Local Open Scope k_scope.
Variable solve : list (list K) -> list K -> list K.
Variable pinv : list (list K) -> K -> list (list K) * bool.
Lemma reads_fun k ab r r' : reads solve pinv k ab r -> reads solve pinv k ab r' -> r = r'.
Proof.
  intros [[c [A1 A2]] A3 A4 A5 A6 A7 A8 A9 [N1 A10] A11] [[c' [B1 B2]] B3 B4 B5 B6 B7 B8 B9 [N1' B10] B11].
  destruct r as [J x Rm dx w s6 s3 M t1 t2 G], r' as [J' x' Rm' dx' w' s6' s3' M' t1' t2' G']. unfold goal_rows, goal_acc in *.
  cbn [r_J r_x r_R r_dx r_w r_s6 r_s3 r_N r_main r_joint r_grav] in *.
  assert (c' = c) as -> by congruence. assert (J' = J) as -> by congruence. assert (x' = x) as -> by congruence. assert (Rm' = Rm) as -> by congruence.
  assert (dx' = dx) as -> by congruence. assert (w' = w) as -> by congruence. assert (s6' = s6) as -> by congruence.
  assert (s3' = s3) as -> by (destruct s6; congruence). assert (M' = M) as -> by congruence. assert (t1' = t1) as -> by congruence. assert (t2' = t2) as -> by congruence.
  assert (G' = G) as -> by (destruct (c_gravity k); congruence). reflexivity.
Qed.
Lemma out_ask q ab x : outcome (ask solve pinv q ab) = Ok x -> exists ab', ask solve pinv q ab = Ok (ab', x).
Proof. destruct (ask solve pinv q ab) as [[a y]| |]; cbn; try discriminate. intros H. inversion H. eauto. Qed.
Lemma oid_length J ddx M fe b o ab N t : outcome (ask solve pinv (QoID J ddx (Some M) fe b o) ab) = Ok (ANull N t) -> List.length t = ab_dof ab /\ exists N', N = Some N'.
Proof.
  intros H. destruct (out_ask _ _ _ H) as [a A]. destruct (oid_form _ _ _ _ _ _ _ _ _ _ _ _ A) as (F & Jb & -> & -> & _). split; [apply lmulv_length|eauto].
Qed.
Lemma reads_lengths {AC : AddComm S} h k ab r : reached solve pinv h ab -> base_fixed false h = true -> reads solve pinv k ab r ->
  List.length (r_main r) = ab_dof ab /\ List.length (r_joint r) = ab_dof ab /\ (c_gravity k = true -> List.length (r_grav r) = ab_dof ab) /\ exists N, r_N r = Some N.
Proof.
  intros R B RD. destruct (oid_length _ _ _ _ _ _ _ _ _ (reads_main _ _ _ _ _ RD)) as [L1 [N' EN]]. destruct (reads_joint _ _ _ _ _ RD) as [N2 RJ]. rewrite EN in RJ.
  destruct (oid_length _ _ _ _ _ _ _ _ _ RJ) as [L2 _]. repeat split; auto; [|eauto]. intros G. pose proof (reads_grav _ _ _ _ _ RD) as X. rewrite G in X.
  destruct (reached_wfc solve pinv h ab R B) as [T W]. cbn [ask] in X. rewrite outcome_wrap, (out_Grav ab T W) in X. inversion X. apply vec_length.
Qed.
End Fun.

Section Laws.
Context {S : Scal} {L : ScalLaws S} {PL : PosLaws S} {ES : EqSound S}.
Add Field kfc : (@kfield S L).
Local Open Scope k_scope.
Variable solve : list (list K) -> list K -> list K.
Variable pinv : list (list K) -> K -> list (list K) * bool.

Lemma shape_sized n J : shape (List.length J) n J = true -> sized (List.length J) n J.
Proof.
  unfold shape, sized. intros H. apply andb_prop in H. destruct H as [_ H]. split; auto. rewrite forallb_forall in H. apply Forall_forall. intros r Hr. apply Nat.eqb_eq, H; auto.
Qed.
Lemma lid_shape n : shape n n (lid n) = true.
Proof.
  unfold shape. apply andb_true_intro. split; [apply Nat.eqb_eq, mat_length|]. apply forallb_forall. intros r Hr. apply Nat.eqb_eq.
  unfold lid, mat in Hr. apply in_map_iff in Hr. destruct Hr as (i & <- & _). apply vec_length.
Qed.
Lemma ent_lid n i j : (i < n)%nat -> (j < n)%nat -> ent (lid n) i j = delta i j.
Proof. intros. unfold lid. rewrite ent_mat by auto. reflexivity. Qed.
Lemma lmul_lid m n J : sized m n J -> lmul m n n J (lid n) = J.
Proof.
  intros [H1 H2]. unfold lmul. apply (nth_ext _ _ nil nil); [rewrite mat_length; auto|]. intros i Hi. rewrite mat_length in Hi.
  assert (Hr : List.length (nth i J nil) = n) by (rewrite Forall_forall in H2; apply H2, nth_In; lia).
  unfold mat. rewrite (nth_indep _ nil (map (fun j => ksum n (fun k => ent J 0 k * ent (lid n) k j)) (seq 0 n))) by (rewrite map_length, seq_length; auto).
  rewrite (map_nth (fun i => map (fun j => ksum n (fun k => ent J i k * ent (lid n) k j)) (seq 0 n)) (seq 0 m) 0%nat i). rewrite seq_nth by auto. cbn [plus].
  apply (nth_ext _ _ 0 0); [rewrite map_length, seq_length; auto|]. intros j Hj. rewrite map_length, seq_length in Hj.
  change (nth j (vec n (fun j => ksum n (fun k => ent J i k * ent (lid n) k j))) 0 = nth j (nth i J nil) 0). rewrite nth_vec by auto.
  change (nth j (nth i J nil) 0) with (ent J i j). rewrite <- (fm_delta_r n (ent J) i j) by auto. apply ksum_ext. intros l Hl. rewrite ent_lid by auto. reflexivity.
Qed.
Lemma klt_00 : klt (0 : K) 0 = false.
Proof. destruct (klt (0 : K) 0) eqn:E; auto. destruct (kpos_neq _ E eq_refl). Qed.

(** Starting from the identity is starting from the empty matrix. *)
Lemma oid_start h ab J ddx : reached solve pinv h ab -> base_fixed false h = true -> one_threshold 0 h ->
  outcome (ask solve pinv (QoID J ddx (Some (lid (ab_dof ab))) (fun _ => None) true (OpsOpts false false false 0 (klit 1 100) 0)) ab) =
  outcome (ask solve pinv (QoID J ddx (Some nil) (fun _ => None) true (OpsOpts false false false 0 (klit 1 100) 0)) ab).
Proof.
  intros R B OT. assert (AC : AddComm S) by apply laws_comm. destruct (reached_wfc solve pinv h ab R B) as [T W].
  pose proof (reached_wop solve pinv (Some 0) h ab R B (oone_some 0 h OT)) as O.
  cbn [ask]. rewrite !outcome_wrap. rewrite !(out_oID solve pinv ab T W 0 O) by auto. unfold oid_pre.
  set (n := ab_dof ab) in *. destruct (lid n) as [|r M] eqn:EM; [reflexivity|]. rewrite <- EM. rewrite lid_shape.
  destruct (Nat.eqb _ _); [|reflexivity]. cbn [andb]. destruct (sh ab J) eqn:EJ; [|reflexivity].
  assert (HJ : sized (List.length J) n J) by (apply shape_sized, EJ).
  unfold oid_val. cbn [p_cc bind p_fric p_svd]. 
  assert (EJx : oid_J ab J (Some (lid n)) = J) by (unfold oid_J; fold n; rewrite EM, <- EM; apply lmul_lid; auto).
  rewrite EJx. change (oid_J ab J (Some nil)) with J.
  set (o := OpsOpts false false false 0 (klit 1 100) 0).
  assert (X : oid_N solve pinv ab J (Some (lid n)) o = oid_N solve pinv ab J (Some nil) o).
  { unfold oid_N. fold n. f_equal. etransitivity; [|apply (lmul_lid n n _ (mat_square n _))]. rewrite EM. reflexivity. }
  rewrite X. reflexivity.
Qed.

Lemma c44_task h ab k ab' tau st r A Li : reached solve pinv h ab -> base_fixed false h = true -> one_threshold 0 h -> proper ab ->
  outcome (ask solve pinv QInertia ab) = Ok (AMat A) -> solver_ok solve (ab_dof ab) A ->
  compute_opspace_control solve pinv k ab = Ok (ab', (tau, st)) -> reads solve pinv k ab r ->
  outcome (ask solve pinv (QoLinv (goal_rows r)) ab) = Ok (AMat Li) -> inverse_of (List.length (goal_rows r)) Li (fst (pinv Li 0)) ->
  forall e, exists ddq, outcome (ask solve pinv (QFD tau (fun _ => None) (IdOpts (c_gravity k) false false e)) ab) = Ok (AVec ddq) /\
    List.length ddq = ab_dof ab /\ List.length (goal_acc k r) = List.length (goal_rows r) /\
    forall i, (i < List.length (goal_rows r))%nat -> row_times (ab_dof ab) (goal_rows r) ddq i = coef (goal_acc k r) i.
Proof.
  intros R B OT P EA SO EC RD EL IV e. assert (AC : AddComm S) by apply laws_comm. destruct (reached_wfc solve pinv h ab R B) as [T W].
  destruct (control_reads solve pinv h ab k ab' tau st R B OT EC) as (r0 & RD0 & _ & Et & _). assert (r0 = r) by (eapply reads_fun; eauto). subst r0.
  destruct (reads_lengths solve pinv h k ab r R B RD) as (L1 & L2 & L3 & N1 & EN).
  pose proof (reads_main _ _ _ _ _ RD) as M. change (identity (ab_dof ab)) with (lid (ab_dof ab)) in M. rewrite (oid_start h ab _ _ R B OT), EN in M.
  destruct (reads_joint _ _ _ _ _ RD) as [N2 MJ]. rewrite EN in MJ.
  set (J := goal_rows r) in *. set (m := List.length J) in *. set (n := ab_dof ab) in *.
  pose proof (reached_wop solve pinv None h ab R B (oone_none h)) as O0. pose proof (reached_wop solve pinv (Some 0) h ab R B (oone_some 0 h OT)) as O.
  assert (HJ : sized m n J).
  { pose proof EL as X. cbn [ask] in X. rewrite outcome_wrap, (out_oLinv solve pinv ab T W O0) in X. destruct (sh ab J) eqn:EJ; [|discriminate]. apply shape_sized, EJ. }
  assert (Hd : List.length (goal_acc k r) = m).
  { pose proof M as X. cbn [ask] in X. rewrite outcome_wrap, (out_oID solve pinv ab T W 0 O) in X by auto. unfold oid_pre in X. apply Nat.eqb_eq.
    destruct (Nat.eqb _ _) eqn:EE in X; [exact EE|discriminate]. }
  destruct (c36_top solve pinv h ab 0 J (goal_acc k r) (fun _ => None) true (OpsOpts false false false 0 (klit 1 100) 0) N1 (r_main r) A Li m R B OT P EA SO HJ Hd EL IV
    eq_refl eq_refl eq_refl klt_00 ltac:(auto) M) as [TH X].
  assert (L12 : List.length (vadd (r_main r) (r_joint r)) = n) by (apply vadd_length; auto).
  destruct (X (vadd (r_main r) (r_joint r)) ab L12) with (st := e) as (ddq & E1 & E2 & E3); auto.
  - destruct (Nat.eq_dec n 0) as [Z|NZ]; [exists (fun _ => 0); intros i Hi; fold n in Hi; lia|].
    destruct (out_ask solve pinv _ _ _ MJ) as [a2 A2].
    destruct (oid_length solve pinv _ _ _ _ _ _ _ _ _ MJ) as [_ [N2' EN2]]. subst N2.
    assert (CT : control solve pinv [Task (identity n) (c_joint k (ab_q ab) (ab_dq ab)) (fun _ => None) true (OpsOpts false false false 0 (klit 1 100) 0)] N1 (r_main r) ab =
      Some (a2, map (fun i => coef (r_main r) i + coef (r_joint r) i) (seq 0 n))) by (cbn [control t_J t_ddx t_fe t_fe_empty t_o]; rewrite A2; reflexivity).
    destruct (lower_control solve pinv n (n1 solve pinv ab J m 0) ltac:(lia) _ N1 (r_main r) ab a2 _ (r_main r) eq_refl TH ltac:(exists (fun _ => 0); intros; rewrite (ksum_zero n) by (intros; ring); ring) CT) as [y Hy].
    exists y. intros i Hi. etransitivity; [|exact (Hy i Hi)]. rewrite (coef_vadd n) by auto. change (map (fun i => coef (r_main r) i + coef (r_joint r) i) (seq 0 n)) with (vec n (fun i => coef (r_main r) i + coef (r_joint r) i)).
    rewrite qk_vec by auto. reflexivity.
  - destruct W as (c & Ec & _). exists c. destruct ab. cbn in *. subst. reflexivity.
  - exists ddq. split; [|auto]. rewrite <- E1. subst tau. pose proof (reads_grav _ _ _ _ _ RD) as GR. destruct (c_gravity k) eqn:G; [|reflexivity].
    cbn [ask] in GR |- *. rewrite outcome_wrap, (out_Grav ab T W) in GR. inversion GR as [GE]. fold n in GE. fold n in GR.
    rewrite !outcome_wrap, !(out_FD solve ab T W) by auto. fold n. rewrite !(vadd_length n) by (auto; apply vec_length). rewrite Nat.eqb_refl.
    set (t := vadd (r_main r) (r_joint r)) in *.
    assert (V : vec n (fd_rhs ab (vadd t (vec n (Gv ab))) (fun _ => None) (IdOpts true false false e)) = vec n (fd_rhs ab t (fun _ => None) (IdOpts false false false e))).
    { apply vec_ext. intros i Hi. unfold fd_rhs. cbn [o_fric o_cc o_grav]. rewrite (coef_vadd n) by (auto; apply vec_length). rewrite qk_vec by auto. ring. }
    rewrite V. reflexivity.
Qed.
End Laws.

(** It never fails (short of integrating), given at least one link and vectors of the right lengths. *)
Section Total.
Context {S : Scal} {AC : AddComm S} {ES : EqSound S}.
Local Open Scope k_scope.
Variable solve : list (list K) -> list K -> list K.
Variable pinv : list (list K) -> K -> list (list K) * bool.
Lemma on_wf ab0 a : on solve pinv ab0 a -> tree_ok a /\ wfc a /\ wop solve pinv (Some 0) a /\ wop solve pinv None a /\ ab_dof a = ab_dof ab0 /\ ab_q a = ab_q ab0 /\ ab_dq a = ab_dq ab0.
Proof.
  intros (h & c & R & B & OT & E). destruct (reached_wfc solve pinv h a R B) as [T W]. split; [auto|split; [auto|]].
  split; [apply (reached_wop solve pinv (Some 0) h a R B (oone_some 0 h OT))|]. split; [apply (reached_wop solve pinv None h a R B (oone_none h))|]. subst. auto.
Qed.
Lemma out_ok {A} (x : res (body * A)) v : outcome x = Ok v -> exists a, x = Ok (a, v).
Proof. destruct x as [[a y]| |]; cbn; try discriminate. intros H. inversion H. eauto. Qed.
Lemma shape_ok m n J : sized m n J -> shape (List.length J) n J = true.
Proof. intros [H1 H2]. unfold shape. rewrite Nat.eqb_refl. apply forallb_forall. intros r Hr. rewrite Forall_forall in H2. apply Nat.eqb_eq; auto. Qed.
Lemma oid_total ab0 a J ddx N m : on solve pinv ab0 a -> sized m (ab_dof ab0) J -> List.length ddx = m ->
  (forall M, N = Some M -> M <> [] -> shape (ab_dof ab0) (ab_dof ab0) M = true) ->
  exists a' N' t, q_ops_InverseDynamics solve pinv J ddx N no_force true ops_default a = Ok (a', (N', t)) /\ on solve pinv ab0 a' /\ (forall M, N' = Some M -> M <> [] -> shape (ab_dof ab0) (ab_dof ab0) M = true).
Proof.
  intros O HJ Hd HN. destruct (on_wf _ _ O) as (T & W & O1 & _ & D & _).
  pose proof (out_oID solve pinv a T W 0 O1 J ddx N no_force true ops_default eq_refl ltac:(auto)) as X.
  assert (PRE : oid_pre a J ddx N = true).
  { unfold oid_pre, sh. rewrite D, (shape_ok m _ _ HJ), Hd, (proj1 HJ), Nat.eqb_refl. destruct N as [[|r M]|]; auto. rewrite (HN _ eq_refl) by discriminate. reflexivity. }
  rewrite PRE in X. unfold oid_val in X. cbn [ops_default p_cc bind] in X. destruct (out_ok _ _ X) as [a' A]. eexists a', _, _. split; [exact A|]. split.
  - eapply (on_ask solve pinv ab0 a _ a' _ O); [|apply ask_oid; exact A]. intros ? [<-|[]]; reflexivity.
  - intros M. unfold oid_N. destruct N as [M'|]; [|discriminate]. rewrite D. intros E _. inversion E. apply Nat.eqb_eq in PRE || idtac.
    assert (SQ : forall f, shape (ab_dof ab0) (ab_dof ab0) (mat (ab_dof ab0) (ab_dof ab0) f) = true).
    { intros f. unfold shape. rewrite mat_length, Nat.eqb_refl. apply forallb_forall. intros r Hr. unfold mat in Hr. apply in_map_iff in Hr. destruct Hr as (i & <- & _). apply Nat.eqb_eq, vec_length. }
    destruct M'; apply SQ.
Qed.
Lemma sing_total ab0 a J e m : on solve pinv ab0 a -> sized m (ab_dof ab0) J -> exists a' b, q_ops_IsSingular solve pinv J e a = Ok (a', b) /\ on solve pinv ab0 a'.
Proof.
  intros O HJ. destruct (on_wf _ _ O) as (T & W & _ & O1 & D & _). pose proof (out_oSing solve pinv a T W O1 J e) as X. unfold sh in X. rewrite D, (shape_ok m _ _ HJ) in X.
  destruct (out_ok _ _ X) as [a' A]. exists a'. eexists. split; [exact A|]. eapply (on_ask solve pinv ab0 a (QoSing J e) a' (ABool _) O); [intros ? []|]. cbn [ask]. rewrite A. reflexivity.
Qed.
Lemma c44_total h ab k : reached solve pinv h ab -> base_fixed false h = true -> one_threshold 0 h -> (0 < ab_dof ab)%nat ->
  (forall x dx, List.length (fst (c_pos k x dx)) = 3%nat) -> (forall R w, List.length (fst (c_ori k R w)) = 3%nat) ->
  (forall q dq, List.length (c_joint k q dq) = ab_dof ab) -> klt 0 (c_dt k) = false ->
  exists ab' tau st, compute_opspace_control solve pinv k ab = Ok (ab', (tau, st)).
Proof.
  intros R B OT Hn H1 H2 H3 Hdt. pose proof (on_start solve pinv h ab R B OT) as O0. set (n := ab_dof ab) in *. unfold compute_opspace_control. fold n.
  assert (IX : idx n (-1) = Some (n - 1)%nat). { unfold idx, norm_idx. cbn [Z.ltb Z.compare]. replace ((0 <=? -1 + Z.of_nat n)%Z) with true by (symmetry; apply Z.leb_le; lia). replace ((-1 + Z.of_nat n <? Z.of_nat n)%Z) with true by (symmetry; apply Z.ltb_lt; lia). cbn [andb]. f_equal. lia. }
  destruct (on_wf _ _ O0) as (T0 & W0 & _). destruct (out_Jac ab T0 W0 (-1) (c_off k)) as (o' & _ & X). fold n in X. rewrite IX in X. destruct (out_ok _ _ X) as [a1 A1]. rewrite A1. cbn [bind].
  set (cols := vec n (jacv ab (n - 1) o')) in *.
  assert (O1 : on solve pinv ab a1) by (eapply (on_ask solve pinv ab ab (QJac (-1) (c_off k)) a1 (AMots cols) O0); [intros ? []|cbn [ask]; rewrite A1; reflexivity]).
  destruct (on_wf _ _ O1) as (T1 & W1 & _ & _ & D1 & _).
  pose proof (out_Pos a1 (-1) (c_off k)) as X2. rewrite (out_Tw a1 T1 W1), D1 in X2. fold n in X2. rewrite IX in X2. cbn [bind] in X2. destruct (out_ok _ _ X2) as [a2 A2]. rewrite A2. cbn [bind].
  set (x := iso_app _ _) in *.
  assert (O2 : on solve pinv ab a2) by (eapply (on_ask solve pinv ab a1 (QPos (-1) (c_off k)) a2 (AV3 x) O1); [intros ? []|cbn [ask]; rewrite A2; reflexivity]).
  destruct (c_pos k x _) as [ddx xe] eqn:Ep. assert (Ld : List.length ddx = 3%nat) by (rewrite <- (H1 x (lmulv 3 n (firstn 3 (task_jacobian (c_rot k) cols)) (ab_dq a2))), Ep; reflexivity).
  destruct (on_wf _ _ O2) as (T2 & W2 & _ & _ & D2 & _).
  pose proof (out_Ori a2 (-1)) as X3. rewrite (out_Tw a2 T2 W2), D2 in X3. fold n in X3. rewrite IX in X3. cbn [bind] in X3. destruct (out_ok _ _ X3) as [a3 A3]. rewrite A3. cbn [bind].
  set (Rm := rot _) in *.
  assert (O3 : on solve pinv ab a3) by (eapply (on_ask solve pinv ab a2 (QOri (-1)) a3 (AM3 Rm) O2); [intros ? []|cbn [ask]; rewrite A3; reflexivity]).
  destruct (c_ori k Rm _) as [dw oe] eqn:Eo. assert (Lw : List.length dw = 3%nat) by (rewrite <- (H2 Rm (lmulv 3 n (skipn 3 (task_jacobian (c_rot k) cols)) (ab_dq a3))), Eo; reflexivity).
  destruct (on_wf _ _ O3) as (T3 & W3 & _ & _ & D3 & _).
  set (J := task_jacobian (c_rot k) cols) in *.
  assert (HJ : sized 6 n J).
  { unfold J, task_jacobian, jac_rows. split; [reflexivity|]. assert (LC : List.length (match c_rot k with None => cols | Some R0 => map (fun m => Mot (m3mulv R0 (mlin m)) (m3mulv R0 (mang m))) cols end) = n) by (destruct (c_rot k); rewrite ?map_length; apply vec_length).
    repeat constructor; rewrite map_length; exact LC. }
  assert (HJ3 : sized 3 n (firstn 3 J)) by (destruct HJ as [_ F]; split; [reflexivity|]; apply Forall_forall; intros r Hr; rewrite Forall_forall in F; apply F; rewrite <- (firstn_skipn 3 J); apply in_app_iff; auto).
  assert (SL : forall M : lmat, Some (lid n) = Some M -> M <> [] -> shape n n M = true).
  { intros M E _. inversion E. unfold shape, lid. rewrite mat_length, Nat.eqb_refl. apply forallb_forall. intros r Hr. unfold mat in Hr. apply in_map_iff in Hr. destruct Hr as (i & <- & _). apply Nat.eqb_eq, vec_length. }
  assert (M : exists a4 N t1 s6 s3, main_task solve pinv J ddx dw a3 = Ok (a4, (N, t1, s6, s3)) /\ on solve pinv ab a4 /\ (forall M, N = Some M -> M <> [] -> shape n n M = true)).
  { unfold main_task. rewrite D3. fold n. destruct (sing_total ab a3 J (klit 1 100) 6 O3 HJ) as (b1 & s6 & Es & Ob). rewrite Es. cbn [bind]. destruct s6.
    - destruct (oid_total ab b1 (firstn 3 J) ddx (Some (lid n)) 3 Ob HJ3 Ld SL) as (b2 & N & t & Ei & Oc & SN). rewrite Ei. cbn [bind].
      destruct (sing_total ab b2 (firstn 3 J) (klit 1 100) 3 Oc HJ3) as (b3 & s3 & Es' & Od). rewrite Es'. cbn [bind]. exists b3, N, t, true, s3. auto.
    - destruct (oid_total ab b1 J (ddx ++ dw) (Some (lid n)) 6 Ob HJ ltac:(rewrite app_length, Ld, Lw; reflexivity) SL) as (b2 & N & t & Ei & Oc & SN). rewrite Ei. cbn [bind].
      exists b2, N, t, false, false. auto. }
  destruct M as (a4 & N & t1 & s6 & s3 & EM & O4 & SN). rewrite EM. cbn [bind].
  assert (HI : sized n n (lid n)) by (apply mat_square).
  destruct (oid_total ab a4 (lid n) (c_joint k (ab_q a4) (ab_dq a4)) N n O4 HI (H3 _ _) SN) as (a5 & N5 & t5 & E5 & O5 & _). rewrite E5. cbn [bind].
  destruct (on_wf _ _ O5) as (T5 & W5 & _). rewrite Hdt. destruct (c_gravity k).
  - destruct (out_ok _ _ (out_Grav a5 T5 W5)) as [a6 A6]. rewrite A6. cbn [bind]. eauto.
  - cbn [bind]. eauto.
Qed.
End Total.

(** A solver that multiplies by a right inverse. *)
Lemma solver_inverse {S : Scal} {L : ScalLaws S} (inv : list (list K) -> list (list K)) n A : List.length A = n ->
  (forall i j, (i < n)%nat -> (j < n)%nat -> prod_at n A (inv A) i j = delta i j) -> solver_ok (fun A b => lmulv (List.length A) (List.length A) (inv A) b) n A.
Proof.
  intros Hn H b Hb. rewrite Hn. split; [apply lmulv_length|]. intros i Hi. unfold row_times. rewrite total_ksum.
  transitivity (fm n (entry A) (fm n (entry (inv A)) (fun k _ => coef b k)) i 0).
  - apply ksum_ext. intros j Hj. f_equal. change (coef (lmulv n n (inv A) b) j) with (qk (lmulv n n (inv A) b) j). rewrite lmulv_coef by auto. reflexivity.
  - rewrite <- fm_assoc. rewrite (fm_ext n _ delta _ (fun k _ => coef b k)) by (auto; intros k Hk; rewrite <- prod_fm; auto). rewrite fm_delta_l by auto. reflexivity.
Qed.
Section Rest.
Context {S : Scal} {L : ScalLaws S} {ES : EqSound S}.
Add Field kfr : (@kfield S L).
Local Open Scope k_scope.
Variable solve : list (list K) -> list K -> list K.
Variable pinv : list (list K) -> K -> list (list K) * bool.
Lemma rate_zero n dq row : (forall i, coef dq i = 0) -> rate n dq row = 0.
Proof. intros H. rewrite rate_ksum. apply ksum_zero. intros i _. rewrite H. ring. Qed.
Lemma squares_zero (x : list K) : Forall (fun a => a = 0) x -> fold_left kadd (map (fun a => a * a) x) 0 = 0.
Proof. induction 1 as [|a x -> _ IH]; [reflexivity|]. cbn [map fold_left]. replace (0 + 0 * 0) with (0 : K) by ring. exact IH. Qed.
Lemma c44_rest h ab k ab' tau st : reached solve pinv h ab -> base_fixed false h = true -> one_threshold 0 h ->
  compute_opspace_control solve pinv k ab = Ok (ab', (tau, st)) ->
  (forall i, coef (ab_dq ab) i = 0) -> klt 0 (c_dx k * c_dx k) = true -> py_bool st = true.
Proof.
  intros R B OT E Hz Hk. assert (AC : AddComm S) by apply laws_comm. destruct (control_reads solve pinv h ab k ab' tau st R B OT E) as (r & RD & ST & _).
  destruct ST as (_ & _ & H1 & _). assert (Z.testbit st 1 = true).
  { apply H1. right. rewrite (reads_dx _ _ _ _ _ RD), squares_zero; [exact Hk|]. apply Forall_forall. intros a Ha. apply in_map_iff in Ha. destruct Ha as (row & <- & _). apply rate_zero; auto. }
  unfold py_bool. destruct (Z.eqb_spec st 0); [subst; discriminate|reflexivity].
Qed.
End Rest.
Lemma c44_defaults {S : Scal} solve pinv dt k (ab : body) t :
  py_opspace_control solve pinv None t dt k ab = Throw /\ py_opspace_control solve pinv t None dt k ab = Throw.
Proof. split; [reflexivity|]. destruct t as [[x dx]|]; reflexivity. Qed.
Section Final.
Context {S : Scal} {AC : AddComm S} {ES : EqSound S}.
Local Open Scope k_scope.
Variable solve : list (list K) -> list K -> list K.
Variable pinv : list (list K) -> K -> list (list K) * bool.
Lemma c44_status h ab k ab' tau st : reached solve pinv h ab -> base_fixed false h = true -> one_threshold 0 h ->
  compute_opspace_control solve pinv k ab = Ok (ab', (tau, st)) ->
  exists r, reads solve pinv k ab r /\ status_of k r st /\ List.length tau = ab_dof ab /\
    (forall i, (i < ab_dof ab)%nat -> coef tau i = if c_gravity k then coef (r_main r) i + coef (r_joint r) i + coef (r_grav r) i else coef (r_main r) i + coef (r_joint r) i) /\
    exists ab1 h1 c, reached solve pinv h1 ab1 /\ base_fixed false h1 = true /\ ab1 = set_cache ab (Some c) /\
      if klt 0 (c_dt k) then step solve pinv (OIntegrate false tau (fun _ => None) (IdOpts true true false (klit 1 100)) (IntOpts false MRk4) (c_dt k)) ab1 = Some ab'
      else ab' = ab1.
Proof.
  intros R B OT E. destruct (control_reads solve pinv h ab k ab' tau st R B OT E) as (r & RD & ST & Et & ab1 & (h1 & c & R1 & B1 & _ & E1) & EI).
  destruct (reads_lengths solve pinv h k ab r R B RD) as (L1 & L2 & L3 & _).
  exists r. split; [auto|]. split; [auto|]. pose proof (vadd_length _ _ _ L1 L2) as L12.
  split; [subst tau; destruct (c_gravity k); [apply vadd_length; auto|auto]|]. split.
  - intros i Hi. subst tau. change (@coef S) with (@qk S). destruct (c_gravity k).
    + rewrite (coef_vadd (ab_dof ab)), (coef_vadd (ab_dof ab)) by auto. reflexivity.
    + rewrite (coef_vadd (ab_dof ab)) by auto. reflexivity.
  - exists ab1, h1, c. repeat (split; [auto|]). destruct (klt 0 (c_dt k)); [|auto]. cbn [step]. change (fun _ : nat => None) with no_force. rewrite EI. reflexivity.
Qed.
End Final.
From Coq Require Import Reals Lra.
From Verif Require Import Instances.
Section Real.
Local Open Scope R_scope.
Lemma sqsum_left (x : list R) : forall a, fold_left Rplus (map (fun b => b * b) x) a = a + sqsum x.
Proof. induction x as [|b x IH]; intros a; cbn [map fold_left sqsum fold_right]; [lra|]. rewrite IH. fold (sqsum x). lra. Qed.
Lemma sqsum_pos (x : list R) : 0 <= sqsum x.
Proof. induction x as [|b x IH]; cbn [sqsum fold_right]; [lra|]. fold (sqsum x). pose proof (Rle_0_sqr b). unfold Rsqr in *. lra. Qed.
Lemma c44_within (t : @K RScal) (x : list (@K RScal)) : @within RScal t x <-> t < 0 \/ sqrt (sqsum x) < t.
Proof.
  unfold within. change (@fold_left (@K RScal) (@K RScal) (@kadd RScal) (map (fun a => @kmul RScal a a) x) (@k0 RScal)) with (fold_left Rplus (map (fun b => b * b) x) 0).
  rewrite sqsum_left. change (@klt RScal) with Rltb. change (@k0 RScal) with 0. change (@kmul RScal t t) with (t * t).
  pose proof (sqsum_pos x) as P. unfold Rltb. destruct (Rlt_dec t 0) as [Q0|Q0]; [tauto|]. destruct (Rlt_dec (0 + sqsum x) (t * t)) as [Q|Q]; split; intros [H|H]; try discriminate; try lra; auto.
  - right. rewrite <- (sqrt_square t) by lra. apply sqrt_lt_1; nra.
  - right. exfalso. apply Q. pose proof (sqrt_sqrt _ P). pose proof (sqrt_pos (sqsum x)). nra.
Qed.
End Real.
