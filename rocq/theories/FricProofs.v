(** Friction in forward and inverse dynamics (C60), and energy (C23). *)
From Coq Require Import List Arith ZArith Bool Lia Ring Field Reals Lra.
From Verif Require Import Scalar Base Spatial SpecGeo Joint Body Kin InvDyn FwdDyn Opspace OpspaceAba Deriv Sim Ops Instances Specs SpecCache SpecKin SpecDyn SpecAba SpecReal SpecSim SpecFric SpatialTac SpatialProofs TreeProofs CacheProofs CacheOps JointProofs BigSum KinProofs WorldProofs DynProofs LoadProofs DynApi RealDyn AbaProofs AbaLaws AbaApi FirmProofs SimProofs RealCalc RealMotion RealEnergy.
Import ListNotations.

Section Any.
Context {S : Scal} {L : ScalLaws S} {PL : PosLaws S}.
Add Field kf : (@kfield S L).
Variable solve : list (list K) -> list K -> list K.
Variable pinv : list (list K) -> K -> list (list K) * bool.
Local Open Scope k_scope.
Lemma less_vec n x y : less n x y = vec n (fun i => coef x i - coef y i).
Proof. reflexivity. Qed.
Lemma qk_zero n i : qk (repeat (k0 : K) n) i = 0.
Proof. unfold qk. revert i. induction n; intros [|i]; cbn; auto. Qed.
Definition bias (ab : body) (fe : fmap) (o : id_opts) (i : nat) : K :=
  (if o_cc o then Cv ab i else 0) + (if o_grav o then Gv ab i else 0) + Extv ab fe i.
Lemma bias_id ab fe o i : id_base ab o (repeat 0 (ab_dof ab)) fe i = bias ab fe o i.
Proof. unfold id_base, bias, mat_vec. rewrite ksum_zero; [ring|]. intros j Hj. rewrite qk_zero. ring. Qed.
Lemma out_bias ab fe o : tree_ok ab -> wfc ab -> proper ab ->
  outcome (ask solve pinv (QID (repeat 0 (ab_dof ab)) fe (frictionless o)) ab) = Ok (AVec (vec (ab_dof ab) (bias ab fe o))).
Proof.
  intros T W P. cbn [ask]. rewrite outcome_wrap, (out_ID ab T W), repeat_length, Nat.eqb_refl by auto. cbn [bind]. do 2 f_equal.
  apply vec_ext. intros i Hi. unfold plus_friction. cbn [o_fric frictionless]. rewrite bias_id. reflexivity.
Qed.
Lemma c60_forward h ab tau fe o A : reached solve pinv h ab -> base_fixed false h = true -> proper ab -> o_fric o = true -> List.length tau = ab_dof ab ->
  outcome (ask solve pinv QInertia ab) = Ok (AMat A) -> solver_ok solve (ab_dof ab) A ->
  exists b F ddq, outcome (ask solve pinv (QID (repeat 0 (ab_dof ab)) fe (frictionless o)) ab) = Ok (AVec b) /\
    Friction ab (less (ab_dof ab) tau b) false (o_stic o) = Ok F /\
    outcome (ask solve pinv (QFD tau fe o) ab) = Ok (AVec ddq) /\
    outcome (ask solve pinv (QFD (less (ab_dof ab) tau F) fe (frictionless o)) ab) = Ok (AVec ddq) /\
    outcome (ask solve pinv (QID ddq fe (frictionless o)) ab) = Ok (AVec (less (ab_dof ab) tau F)).
Proof.
  intros R B P Ho Ht HA SO. assert (AC : AddComm S) by apply laws_comm. destruct (reached_wfc _ _ _ _ R B) as [T W].
  exists (vec (ab_dof ab) (bias ab fe o)), (vec (ab_dof ab) (friction_arr ab (qk (less (ab_dof ab) tau (vec (ab_dof ab) (bias ab fe o)))) false (o_stic o))).
  destruct (c17 solve pinv h ab fe (frictionless o) R B P eq_refl) as (A' & HA' & HC). rewrite HA in HA'. injection HA' as <-.
  destruct (HC SO) as [H1 _]. clear HC.
  set (F := vec (ab_dof ab) (friction_arr ab (qk (less (ab_dof ab) tau (vec (ab_dof ab) (bias ab fe o)))) false (o_stic o))).
  destruct (H1 (less (ab_dof ab) tau F)) as (ddq & E1 & E2); [apply vec_length|]. exists ddq.
  split; [apply out_bias; auto|]. split.
  { unfold Friction. rewrite less_vec, vec_length, Nat.ltb_irrefl. reflexivity. }
  split; [|auto]. rewrite <- E1. cbn [ask]. rewrite !outcome_wrap. rewrite (out_FD solve ab T W tau) by auto. rewrite (out_FD solve ab T W (less _ _ _)) by auto. rewrite (less_vec _ _ F), Ht, vec_length, Nat.eqb_refl. cbn [bind]. do 3 f_equal.
  apply vec_ext. intros i Hi. unfold fd_rhs. rewrite Ho. cbn [frictionless o_fric o_cc o_grav]. cbn zeta. rewrite qk_vec by auto.
  unfold F. rewrite coef_vec by auto. unfold friction_arr. rewrite less_vec, qk_vec, coef_vec by auto. change (coef tau i) with (qk tau i). fold (bias ab fe o i).
  ring.
Qed.
End Any.

Section Real.
Variable solve : list (list R) -> list R -> list R.
Variable pinv : list (list R) -> R -> list (list R) * bool.
Local Existing Instance RScal.
Local Open Scope R_scope.

Lemma friction_slips (j : @joint RScal) dq t comp eps : 0 <= eps -> slips j eps dq -> @friction1 RScal j dq t comp eps = rubbing_torque j dq.
Proof.
  intros He [[Hc Hd]|[Hc Hs]]; unfold rubbing_torque.
  - apply friction_kinetic; auto.
  - rewrite friction_static by auto. rewrite Hc, Hs. f_equal. rewrite Rmult_0_l. destruct comp; [cbn; ring|].
    replace (0 + 0) with 0 by ring. unfold Rmin. destruct (Rle_dec 0 (Rabs t)) as [_|N]; [apply Rmult_0_l|]. destruct N. apply Rabs_pos.
Qed.
Lemma kmin_swap (a b : R) : @kmin RScal a b = @kmin RScal b a.
Proof.
  unfold kmin. cbn [klt RScal]. destruct (Rltb b a) eqn:E1, (Rltb a b) eqn:E2; auto.
  - apply Rltb_lt in E1, E2. lra.
  - apply Rltb_ge in E1, E2. apply Rle_antisym; auto.
Qed.
Lemma moved (a z c t : R) : a + z = c -> t - a - z = t - c.
Proof. lra. Qed.
Lemma aba_slips ab o i t : o_fric o = true -> 0 <= o_stic o -> (i < ab_dof ab)%nat -> slips (joint_i ab i) (o_stic o) (@coef RScal (ab_dq ab) i) ->
  @aba_tau RScal ab o i t = t - rubbing_torque (joint_i ab i) (@coef RScal (ab_dq ab) i).
Proof.
  intros Ho He Hi Hs. unfold aba_tau. rewrite Ho. change (rb_joint (rb_at ab i)) with (joint_i ab i). change (@qk RScal (ab_dq ab) i) with (@coef RScal (ab_dq ab) i).
  set (j := joint_i ab i) in *. set (v := @coef RScal (ab_dq ab) i) in *. pose proof (friction_slips j v (t - jviscous j * v) false (o_stic o) He Hs) as E.
  unfold friction1 in E. rewrite kmin_swap in E. unfold rubbing_torque in *. cbn [kadd kmul ksub keq k0 kabs RScal] in *.
  exact (moved _ _ _ _ E).
Qed.

(** ** All joints slipping: friction is a known torque *)
Lemma rub_at ab i : (i < ab_dof ab)%nat -> @coef RScal (rubbing_torques ab) i = rubbing_torque (joint_i ab i) (@coef RScal (ab_dq ab) i).
Proof. intros Hi. unfold rubbing_torques. apply (@coef_vec RScal (ab_dof ab) (fun i => rubbing_torque (joint_i ab i) (@coef RScal (ab_dq ab) i))). auto. Qed.
Lemma fric_arr_slips ab t comp eps i : 0 <= eps -> slipping ab eps -> (i < ab_dof ab)%nat ->
  @friction_arr RScal ab t comp eps i = @coef RScal (rubbing_torques ab) i.
Proof. intros He Hs Hi. rewrite rub_at by auto. unfold friction_arr. apply friction_slips; auto. Qed.
Definition more (n : nat) (x y : list R) : list R := vec n (fun i => @coef RScal x i + @coef RScal y i).
Lemma more_less n x y : List.length x = n -> more n (@less RScal n x y) y = x.
Proof.
  intros H. apply (@list_coef_ext RScal n); auto; [apply vec_length|]. intros i Hi. unfold more. rewrite less_vec, !(@coef_vec RScal) by auto. cbn. ring.
Qed.
Lemma less_more n x y : List.length x = n -> @less RScal n (more n x y) y = x.
Proof.
  intros H. apply (@list_coef_ext RScal n); auto; [apply vec_length|]. intros i Hi. unfold more. rewrite less_vec, !(@coef_vec RScal) by auto. cbn. ring.
Qed.
Lemma less_length n x y : List.length (@less RScal n x y) = n.
Proof. apply vec_length. Qed.

Section Slip.
Variables (h : list (@op RScal)) (ab : @body RScal) (fe : fmap) (o : @id_opts RScal).
Hypothesis Rh : reached solve pinv h ab.
Hypothesis Bf : base_fixed false h = true.
Hypothesis P : proper ab.
Hypothesis Ho : o_fric o = true.
Hypothesis He : 0 <= o_stic o.
Hypothesis Hs : slipping ab (o_stic o).
Let n := ab_dof ab.
Lemma slip_fd tau : List.length tau = n ->
  outcome (ask solve pinv (QFD tau fe o) ab) = outcome (ask solve pinv (QFD (@less RScal n tau (rubbing_torques ab)) fe (frictionless o)) ab).
Proof.
  intros Ht. destruct (@reached_wfc RScal solve pinv (@laws_comm RScal RLaws) _ _ Rh Bf) as [T W].
  cbn [ask]. rewrite !outcome_wrap. rewrite (@out_FD RScal RLaws RPos solve ab T W tau) by auto. rewrite (@out_FD RScal RLaws RPos solve ab T W (less _ _ _)) by auto.
  rewrite less_length, Ht. unfold n. rewrite Nat.eqb_refl. cbn [bind]. do 3 f_equal. apply vec_ext. intros i Hi.
  unfold fd_rhs. rewrite Ho. cbn [frictionless o_fric o_cc o_grav]. cbn zeta. rewrite fric_arr_slips by auto.
  rewrite less_vec, (@qk_vec RScal) by auto. change (@qk RScal tau i) with (@coef RScal tau i).
  match goal with |- ?a = ?b => change (@eq R a b) end. cbn. ring.
Qed.
Lemma slip_id ddq : List.length ddq = n -> exists t, List.length t = n /\
  outcome (ask solve pinv (QID ddq fe (frictionless o)) ab) = Ok (AVec t) /\
  outcome (ask solve pinv (QID ddq fe o) ab) = Ok (AVec (more n t (rubbing_torques ab))).
Proof.
  intros Hd. destruct (@reached_wfc RScal solve pinv (@laws_comm RScal RLaws) _ _ Rh Bf) as [T W].
  cbn [ask]. rewrite !outcome_wrap, !(@out_ID RScal RLaws RPos ab T W) by auto. rewrite Hd. unfold n. rewrite Nat.eqb_refl. cbn [bind].
  eexists. split; [apply vec_length|]. split; [reflexivity|]. do 2 f_equal. apply vec_ext. intros i Hi. rewrite (@coef_vec RScal) by auto.
  unfold plus_friction. rewrite Ho. cbn [frictionless o_fric]. rewrite fric_arr_slips by auto. reflexivity.
Qed.
Lemma slip_aba tau : List.length tau = n ->
  outcome (ask solve pinv (QAba tau fe o) ab) = outcome (ask solve pinv (QAba (@less RScal n tau (rubbing_torques ab)) fe (frictionless o)) ab).
Proof.
  intros Ht. cbn [ask]. rewrite !outcome_wrap. f_equal. unfold q_ForwardDynamicsAba. rewrite less_length, Ht. unfold n. rewrite Nat.eqb_refl.
  rewrite !outcome_on_cache. destruct (ab_cache ab) as [c|]; [|reflexivity].
  assert (E : forward_dynamics_aba ab tau fe o c = forward_dynamics_aba ab (@less RScal (ab_dof ab) tau (rubbing_torques ab)) fe (frictionless o) c).
  { unfold forward_dynamics_aba.
    cbv zeta.
    change (@o_grav RScal (frictionless o)) with (o_grav o).
    match goal with |- context [@for_up ?St ?n (@aba_fwd_step _ _ ?a ?b ?c ?d o _) ?s] =>
      change (@for_up St n (@aba_fwd_step RScal ab a b c d (frictionless o) fe) s) with (@for_up St n (@aba_fwd_step RScal ab a b c d o fe) s);
      destruct (@for_up St n (@aba_fwd_step RScal ab a b c d o fe) s) as [[[v a0] Ia] f] end.
    match goal with |- context [@for_down ?St ?n (@aba_back_step _ _ ?a ?b o tau ?d) ?s] =>
      rewrite (@for_down_ext St n (@aba_back_step RScal ab a b o tau d) (@aba_back_step RScal ab a b (frictionless o) (@less RScal (ab_dof ab) tau (rubbing_torques ab)) d) s) end.
    - reflexivity.
    - intros i [[[[Ia1 h1] d1] f1] x1] Hi. unfold aba_back_step.
      destruct (aba_inertia ab _ _ i (Ia1, h1, d1)) as [[Ia2 h2] d2].
      rewrite (aba_slips ab o) by (auto; apply Hs; auto). unfold aba_tau at 2. cbn [frictionless o_fric].
      rewrite less_vec, (@qk_vec RScal), rub_at by auto. change (@qk RScal tau i) with (@coef RScal tau i).
      match goal with |- (_, _, _, _, upd _ _ (@kdiv RScal ?a ?d)) = (_, _, _, _, upd _ _ (@kdiv RScal ?b ?d)) =>
        replace b with a by (match goal with |- ?x = ?y => change (@eq R x y) end; cbn; ring) end. reflexivity. }
  cbn [bind]. rewrite E. reflexivity.
Qed.
Lemma c60_fd : exists A, outcome (ask solve pinv QInertia ab) = Ok (AMat A) /\
    (solver_ok solve (ab_dof ab) A ->
     (forall tau, List.length tau = ab_dof ab -> exists ddq,
        outcome (ask solve pinv (QFD tau fe o) ab) = Ok (AVec ddq) /\
        outcome (ask solve pinv (QID ddq fe o) ab) = Ok (AVec tau)) /\
     (injective (ab_dof ab) A -> forall ddq, List.length ddq = ab_dof ab -> exists tau,
        outcome (ask solve pinv (QID ddq fe o) ab) = Ok (AVec tau) /\
        outcome (ask solve pinv (QFD tau fe o) ab) = Ok (AVec ddq))).
Proof.
  destruct (@c17 RScal RLaws RPos solve pinv h ab fe (frictionless o) Rh Bf P eq_refl) as (A & HA & HC). exists A. split; auto.
  intros SO. destruct (HC SO) as [H1 H2]. split.
  - intros tau Ht. destruct (H1 (@less RScal n tau (rubbing_torques ab)) (less_length _ _ _)) as (ddq & E1 & E2). exists ddq.
    rewrite slip_fd by auto. split; auto.
    assert (Hd : List.length ddq = n).
    { destruct (@reached_wfc RScal solve pinv (@laws_comm RScal RLaws) _ _ Rh Bf) as [T W]. cbn [ask] in E2.
      rewrite outcome_wrap, (@out_ID RScal RLaws RPos ab T W) in E2 by auto. destruct (Nat.eqb_spec (List.length ddq) (ab_dof ab)); auto. discriminate. }
    destruct (slip_id ddq Hd) as (t & Lt & E3 & E4). rewrite E2 in E3. injection E3 as <-. rewrite E4. rewrite more_less by auto. auto.
  - intros In ddq Hd. destruct (slip_id ddq Hd) as (t & Lt & E3 & E4). exists (more n t (rubbing_torques ab)). split; auto.
    rewrite slip_fd by apply vec_length. rewrite less_more by auto. destruct (H2 In ddq Hd) as (tau & E5 & E6). rewrite E3 in E5. injection E5 as <-. auto.
Qed.
Lemma c60_aba : unmixed h = true -> articulable ab -> (o_grav o = true -> rot (ab_Tbase ab) = m3id) -> aba_inverts solve pinv fe o ab ab.
Proof.
  intros U AR HB. destruct (@c18 RScal RLaws RPos solve pinv h ab fe (frictionless o) Rh Bf U P AR eq_refl HB) as [H1 H2]. split.
  - intros tau Ht. destruct (H1 (@less RScal n tau (rubbing_torques ab)) (less_length _ _ _)) as (ddq & E1 & E2). exists ddq.
    rewrite slip_aba by auto. split; auto.
    assert (Hd : List.length ddq = n).
    { destruct (@reached_wfc RScal solve pinv (@laws_comm RScal RLaws) _ _ Rh Bf) as [T W]. cbn [ask] in E2.
      rewrite outcome_wrap, (@out_ID RScal RLaws RPos ab T W) in E2 by auto. destruct (Nat.eqb_spec (List.length ddq) (ab_dof ab)); auto. discriminate. }
    destruct (slip_id ddq Hd) as (t & Lt & E3 & E4). rewrite E2 in E3. injection E3 as <-. rewrite E4. rewrite more_less by auto. auto.
  - intros ddq Hd. destruct (slip_id ddq Hd) as (t & Lt & E3 & E4). exists (more n t (rubbing_torques ab)). split; auto.
    rewrite slip_aba by apply vec_length. rewrite less_more by auto. destruct (H2 ddq Hd) as (tau & E5 & E6). rewrite E3 in E5. injection E5 as <-. auto.
Qed.
End Slip.

(** ** At rest within the bounds of stiction *)
Lemma c60_sticks h ab tau fe o A b : reached solve pinv h ab -> base_fixed false h = true -> proper ab -> o_fric o = true -> 0 <= o_stic o ->
  List.length tau = ab_dof ab -> outcome (ask solve pinv QInertia ab) = Ok (AMat A) -> solver_ok solve (ab_dof ab) A -> injective (ab_dof ab) A ->
  outcome (ask solve pinv (QID (zeros (ab_dof ab)) fe (frictionless o)) ab) = Ok (AVec b) ->
  (forall i, (i < ab_dof ab)%nat -> friction_coefficients (joint_i ab i) /\ @coef RScal (ab_dq ab) i = 0 /\
     Rabs (@coef RScal tau i - @coef RScal b i) <= jcoulomb (joint_i ab i) + jstiction (joint_i ab i)) ->
  outcome (ask solve pinv (QFD tau fe o) ab) = Ok (AVec (zeros (ab_dof ab))).
Proof.
  intros Rh Bf P Ho He Ht HA SO In Hb HJ.
  destruct (@c60_forward RScal RLaws RPos solve pinv h ab tau fe o A Rh Bf P Ho Ht HA SO) as (b' & F & ddq & E1 & E2 & E3 & E4 & E5).
  change (repeat (@k0 RScal) (ab_dof ab)) with (zeros (ab_dof ab)) in E1. rewrite Hb in E1. injection E1 as <-.
  assert (Lb : List.length b = ab_dof ab).
  { destruct (@reached_wfc RScal solve pinv (@laws_comm RScal RLaws) _ _ Rh Bf) as [T W]. cbn [ask] in Hb.
    rewrite outcome_wrap, (@out_ID RScal RLaws RPos ab T W) in Hb by auto. destruct (Nat.eqb _ _); [|discriminate]. injection Hb as <-. apply vec_length. }
  assert (EF : @less RScal (ab_dof ab) tau F = b).
  { apply (@list_coef_ext RScal (ab_dof ab)); auto; [apply less_length|]. intros i Hi. rewrite less_vec, (@coef_vec RScal) by auto.
    destruct (HJ i Hi) as (FC & V0 & HT).
    destruct (c24 ab (@less RScal (ab_dof ab) tau b) false (o_stic o) i Hi) as (F' & EF & LF & _ & HS); auto; [rewrite less_length; auto|].
    rewrite E2 in EF. injection EF as <-. cbv zeta in HS. rewrite less_vec, (@coef_vec RScal) in HS by auto.
    assert (N0 : Rabs (@coef RScal (ab_dq ab) i) <= o_stic o) by (rewrite V0, Rabs_R0; auto).
    destruct (HS (or_introl N0)) as (s & Es & _ & _ & _ & _ & _ & Hst). specialize (Hst HT). rewrite Es, V0, Hst.
    match goal with |- ?a = ?b => change (@eq R a b) end. cbn. ring. }
  rewrite E3. rewrite EF in E4.
  destruct (@c17 RScal RLaws RPos solve pinv h ab fe (frictionless o) Rh Bf P eq_refl) as (A' & HA' & HC). rewrite HA in HA'. injection HA' as <-.
  destruct (HC SO) as [_ H2]. destruct (H2 In (zeros (ab_dof ab)) (repeat_length _ _)) as (t & E6 & E7). rewrite Hb in E6. injection E6 as <-.
  rewrite E4 in E7. exact E7.
Qed.

(** ** Energy *)
Lemma lost_nonneg ab dq : (forall i, (i < ab_dof ab)%nat -> friction_coefficients (joint_i ab i)) -> 0 <= lost ab dq.
Proof.
  intros H. unfold lost. apply total_nonneg. intros i Hi. apply in_seq in Hi. destruct (H i) as (C & V & _); [lia|].
  apply Rplus_le_le_0_compat; apply Rmult_le_pos; auto; [apply Rle_0_sqr|apply Rabs_pos].
Qed.
Lemma taken (a b c : R) : b = a + c -> a = b - c.
Proof. lra. Qed.
Lemma inner_rub ab tau : List.length (ab_dq ab) = ab_dof ab ->
  inner (ab_dq ab) (@less RScal (ab_dof ab) tau (rubbing_torques ab)) = inner (ab_dq ab) tau - lost ab (ab_dq ab).
Proof.
  intros Hl. unfold lost. rewrite !(inner_ksum _ _ (ab_dof ab)) by auto. rewrite (@total_ksum RScal RLaws).
  set (a := @ksum RScal (ab_dof ab) (fun i => _)). set (b := @ksum RScal (ab_dof ab) (fun i => @qk RScal (ab_dq ab) i * @qk RScal tau i)). set (c := @ksum RScal _ _).
  apply (taken a b c).
  unfold a, b, c. change (@ksum RScal (ab_dof ab) (fun i : nat => @qk RScal (ab_dq ab) i * @qk RScal tau i) =
    @kadd RScal (@ksum RScal (ab_dof ab) (fun i : nat => @qk RScal (ab_dq ab) i * @qk RScal (@less RScal (ab_dof ab) tau (rubbing_torques ab)) i))
     (@ksum RScal (ab_dof ab) (fun i : nat => jviscous (joint_i ab i) * (@coef RScal (ab_dq ab) i * @coef RScal (ab_dq ab) i) + jcoulomb (joint_i ab i) * Rabs (@coef RScal (ab_dq ab) i)))).
  rewrite <- (@ksum_add RScal RLaws). apply (@ksum_ext RScal). intros i Hi. rewrite less_vec, (@qk_vec RScal), rub_at by auto.
  change (@qk RScal (ab_dq ab) i) with (@coef RScal (ab_dq ab) i). change (@qk RScal tau i) with (@coef RScal tau i).
  unfold rubbing_torque. rewrite <- (sign_mul (@coef RScal (ab_dq ab) i)). match goal with |- ?a = ?b => change (@eq R a b) end. cbn. ring.
Qed.
Lemma unmixed_app h (q dq : list R) : unmixed h = true -> unmixed (h ++ [OSetQ q; OSetDq dq]) = true.
Proof. unfold unmixed. rewrite !forallb_app. cbn. rewrite !andb_true_r. auto. Qed.

Section Motion.
Variables (h : list (@op RScal)) (ab : @body RScal) (q dq : R -> list R) (rob : R -> @body RScal) (t : R) (ddq tau : list R) (fe : @fmap RScal) (o : @id_opts RScal).
Hypothesis Rh : reached solve pinv h ab.
Hypothesis Bf : base_fixed false h = true.
Hypothesis P : proper ab.
Hypothesis Pj : proper_joints ab.
Hypothesis M : moving ab q dq rob t ddq.
Hypothesis Oc : o_cc o = true.
Hypothesis Of : o_fric o = true.
Hypothesis He : 0 <= o_stic o.
Hypothesis Hs : forall i, (i < ab_dof ab)%nat -> slips (joint_i ab i) (o_stic o) (@coef RScal (dq t) i).
Hypothesis Ht : List.length tau = ab_dof ab.

Lemma rob_facts : reached solve pinv (h ++ [OSetQ (q t); OSetDq (dq t)]) (rob t) /\ base_fixed false (h ++ [OSetQ (q t); OSetDq (dq t)]) = true /\
  proper (rob t) /\ ab_dof (rob t) = ab_dof ab /\ ab_dq (rob t) = dq t /\ ab_rbs (rob t) = ab_rbs ab /\ ab_loads (rob t) = ab_loads ab /\ ab_Tbase (rob t) = ab_Tbase ab.
Proof.
  destruct (placed_at _ _ _ _ (mv_placed _ _ _ _ _ _ M t)) as (Lq & Ld & Ea).
  pose proof (placed_reached _ _ _ _ _ _ _ Rh (mv_placed _ _ _ _ _ _ M t)) as Rt. pose proof (base_fixed_app _ _ (q t) (dq t) Bf) as Bt.
  split; [exact Rt|]. split; [exact Bt|]. split; [rewrite Ea; apply at_proper; auto|]. rewrite Ea. repeat split.
Qed.
Lemma rob_slips : slipping (rob t) (o_stic o).
Proof.
  destruct rob_facts as (_ & _ & _ & D & V & B & _). intros i Hi. rewrite D in Hi. unfold joint_i. rewrite V, B. apply Hs; auto.
Qed.
Lemma rob_lost : lost (rob t) (ab_dq (rob t)) = lost ab (dq t).
Proof. destruct rob_facts as (_ & _ & _ & D & V & B & _). unfold lost, joint_i. rewrite D, V, B. reflexivity. Qed.
(** Whatever returned the accelerations, if inverse dynamics agrees. *)
Lemma energy_of : outcome (ask solve pinv (QID ddq fe o) (rob t)) = Ok (AVec tau) ->
  exists X, outcome (ask solve pinv (QExt fe) (rob t)) = Ok (AVec X) /\
    (o_grav o = true -> exists E, (forall u, energy solve pinv (rob u) (E u)) /\
       derivable_pt_lim E t (inner (dq t) tau - inner (dq t) X - lost ab (dq t))).
Proof.
  intros HI. destruct rob_facts as (Rt & Bt & Pt & D & V & B & _).
  assert (HX : exists X, outcome (ask solve pinv (QExt fe) (rob t)) = Ok (AVec X)).
  { destruct (@reached_wfc RScal solve pinv (@laws_comm RScal RLaws) _ _ Rt Bt) as [T W]. cbn [ask].
    rewrite outcome_wrap, (out_Ext (rob t) T W). cbn [bind]. eexists. reflexivity. }
  destruct HX as (X & HX). exists X. split; auto. intros Og.
  destruct (c23_total solve pinv h ab q dq rob t ddq (frictionless o) fe Rh Bf P Pj M Og Oc eq_refl) as (E & tau' & X' & H1 & H2 & H3 & H4).
  exists E. split; auto. rewrite HX in H3. injection H3 as <-.
  assert (Ld : List.length ddq = ab_dof (rob t)) by (rewrite D; apply (mv_acc _ _ _ _ _ _ M)).
  destruct (slip_id _ _ fe o Rt Bt Pt Of He rob_slips ddq Ld) as (t' & Lt & E3 & E4). rewrite H2 in E3. injection E3 as <-. rewrite HI in E4. injection E4 as ->.
  eapply d_eq; [exact H4|]. rewrite <- rob_lost, <- V. pose proof (inner_rub (rob t) (more (ab_dof (rob t)) tau' (rubbing_torques (rob t)))) as IR.
  rewrite less_more in IR by auto. rewrite IR; [ring|]. rewrite V, D. apply (placed_at _ _ _ _ (mv_placed _ _ _ _ _ _ M t)).
Qed.
End Motion.

Lemma c60_energy h ab q dq rob t ddq tau fe o : reached solve pinv h ab -> base_fixed false h = true -> proper ab -> proper_joints ab ->
  moving ab q dq rob t ddq -> o_grav o = true -> o_cc o = true -> o_fric o = true -> 0 <= o_stic o ->
  (forall i, (i < ab_dof ab)%nat -> slips (joint_i ab i) (o_stic o) (@coef RScal (dq t) i)) -> List.length tau = ab_dof ab ->
  (exists A, outcome (ask solve pinv QInertia (rob t)) = Ok (AMat A) /\ solver_ok solve (ab_dof ab) A /\
     outcome (ask solve pinv (QFD tau fe o) (rob t)) = Ok (AVec ddq)) \/
  (unmixed h = true /\ firm ab /\ rot (ab_Tbase ab) = m3id /\ outcome (ask solve pinv (QAba tau fe o) (rob t)) = Ok (AVec ddq)) ->
  exists E X, (forall u, energy solve pinv (rob u) (E u)) /\ outcome (ask solve pinv (QExt fe) (rob t)) = Ok (AVec X) /\
    derivable_pt_lim E t (inner (dq t) tau - inner (dq t) X - lost ab (dq t)).
Proof.
  intros Rh Bf P Pj M Og Oc Of He Hs Ht HF.
  destruct (rob_facts h ab q dq rob t ddq Rh Bf P M) as (Rt & Bt & Pt & D & V & B & Lo & Tb).
  pose proof (rob_slips h ab q dq rob t ddq o Rh Bf P M Hs) as St.
  assert (HI : outcome (ask solve pinv (QID ddq fe o) (rob t)) = Ok (AVec tau)).
  { destruct HF as [(A & HA & SO & HF)|(U & Fi & Rb & HF)].
    - destruct (c60_fd _ _ fe o Rt Bt Pt Of He St) as (A' & HA' & HC). rewrite HA in HA'. injection HA' as <-. rewrite D in HC.
      destruct (HC SO) as [H1 _]. destruct (H1 tau Ht) as (ddq' & E1 & E2). rewrite HF in E1. injection E1 as <-. exact E2.
    - assert (Ft : firm (rob t)) by (intros k Hk; rewrite D in Hk; unfold bodies_on; rewrite B, Lo; apply Fi; auto).
      assert (Tt : tree_ok (rob t)) by (eapply tree_reached; eauto).
      destruct (c60_aba _ _ fe o Rt Bt Pt Of He St (unmixed_app _ _ _ U) (firm_articulable _ Tt Pt Ft)) as [H1 _]; [rewrite Tb; auto|].
      rewrite D in H1. destruct (H1 tau Ht) as (ddq' & E1 & E2). rewrite HF in E1. injection E1 as <-. exact E2. }
  destruct (energy_of h ab q dq rob t ddq tau fe o Rh Bf P Pj M Oc Of He Hs Ht HI) as (X & HX & HE). destruct (HE Og) as (E & H1 & H2).
  exists E, X. auto.
Qed.
Lemma falls (f d : R -> R) : (forall t, derivable_pt_lim f t (d t)) -> (forall t, d t <= 0) -> forall s t, s <= t -> f t <= f s.
Proof.
  intros H N. assert (pr : derivable f) by (intros x; exists (d x); apply H).
  assert (D : decreasing f).
  { apply (nonpos_derivative_1 f pr). intros x. rewrite (derive_pt_eq_0 f x (d x) (pr x) (H x)). auto. }
  intros s t Hst. apply D. auto.
Qed.
Lemma c60_dissipates h ab q dq rob ddq o : reached solve pinv h ab -> base_fixed false h = true -> proper ab -> proper_joints ab ->
  (forall t, moving ab q dq rob t (ddq t)) -> o_grav o = true -> o_cc o = true -> o_fric o = true -> 0 <= o_stic o ->
  (forall i, (i < ab_dof ab)%nat -> friction_coefficients (joint_i ab i)) ->
  (forall t i, (i < ab_dof ab)%nat -> slips (joint_i ab i) (o_stic o) (@coef RScal (dq t) i)) ->
  (forall t, exists A, outcome (ask solve pinv QInertia (rob t)) = Ok (AMat A) /\ solver_ok solve (ab_dof ab) A /\
     outcome (ask solve pinv (QFD (zeros (ab_dof ab)) (fun _ => None) o) (rob t)) = Ok (AVec (ddq t))) \/
  (unmixed h = true /\ firm ab /\ rot (ab_Tbase ab) = m3id /\
     forall t, outcome (ask solve pinv (QAba (zeros (ab_dof ab)) (fun _ => None) o) (rob t)) = Ok (AVec (ddq t))) ->
  exists E, (forall t, energy solve pinv (rob t) (E t)) /\ forall s t, s <= t -> E t <= E s.
Proof.
  intros Rh Bf P Pj M Og Oc Of He FC Hs HF.
  assert (X : forall t, exists E, (forall u, energy solve pinv (rob u) (E u)) /\ derivable_pt_lim E t (- lost ab (dq t))).
  { intros t. destruct (c60_energy h ab q dq rob t (ddq t) (zeros (ab_dof ab)) (fun _ => None) o) as (E & Xf & H1 & H2 & H3); auto.
    - apply repeat_length.
    - destruct HF as [HF|(U & Fi & Rb & HF)]; [left; apply HF|right; auto].
    - exists E. split; auto. rewrite (ext_none solve pinv h ab (q t) (dq t) (rob t) Rh Bf P (mv_placed _ _ _ _ _ _ (M t) t)) in H2. injection H2 as <-.
      rewrite !inner_zeros in H3. eapply d_eq; [exact H3|ring]. }
  destruct (X 0) as (E & HE & _). exists E. split; auto. apply (falls E (fun t => - lost ab (dq t))); intros t; [|pose proof (lost_nonneg ab (dq t) FC); lra]. destruct (X t) as (F & HF' & HD).
  eapply d_ext; [|exact HD]. intros u. eapply energy_unique; eauto.
Qed.

(** ** Solid links *)
Lemma c18_solid h ab fe o : reached solve pinv h ab -> base_fixed false h = true -> unmixed h = true -> proper ab -> firm ab ->
  o_fric o = false -> (o_grav o = true -> rot (ab_Tbase ab) = m3id) ->
  (forall i, (i < ab_dof ab)%nat -> 0 < joint_inertia ab i) /\ aba_inverts solve pinv fe o ab ab.
Proof.
  intros Rh Bf U P Fi Ho Hb. assert (T : tree_ok ab) by (eapply tree_reached; eauto).
  split; [apply firm_positive; auto|]. apply (@c18 RScal RLaws RPos solve pinv h); auto. apply firm_articulable; auto.
Qed.
Lemma c19_solid h ab : reached solve pinv h ab -> base_fixed false h = true -> unmixed h = true -> proper ab -> firm ab -> serial ab ->
  exists A M, outcome (ask solve pinv QInertia ab) = Ok (AMat A) /\ outcome (ask solve pinv QAinvAba ab) = Ok (AMat M) /\
    inverse_of (ab_dof ab) A M /\ inverse_of (ab_dof ab) M A.
Proof.
  intros Rh Bf U P Fi Hs. assert (T : tree_ok ab) by (eapply tree_reached; eauto).
  apply (@c19 RScal RLaws RPos solve pinv h); auto. apply firm_articulable; auto.
Qed.
Lemma c23_conserved_aba h ab q dq ddq rob o : reached solve pinv h ab -> base_fixed false h = true -> unmixed h = true -> proper ab -> proper_joints ab -> firm ab ->
  rot (ab_Tbase ab) = m3id -> (forall t, moving ab q dq rob t (ddq t)) -> o_cc o = true -> o_fric o = false ->
  (forall t, outcome (ask solve pinv (QAba (zeros (ab_dof ab)) (fun _ => None) o) (rob t)) = Ok (AVec (ddq t))) ->
  (o_grav o = true -> exists E, forall t, energy solve pinv (rob t) E) /\
  (o_grav o = false -> exists E, forall t, kinetic_energy solve pinv (rob t) (dq t) E).
Proof.
  intros Rh Bf U P Pj Fi Rb M Oc Of HF. apply (conserved_of solve pinv h ab q dq ddq rob o); auto. intros t.
  destruct (rob_facts h ab q dq rob t (ddq t) Rh Bf P (M t)) as (Rt & Bt & Pt & D & V & B & Lo & Tb).
  assert (Ft : firm (rob t)) by (intros k Hk; rewrite D in Hk; unfold bodies_on; rewrite B, Lo; apply Fi; auto).
  destruct (c18_solid _ _ (fun _ => None) o Rt Bt (unmixed_app _ _ _ U) Pt Ft Of) as [_ [H1 _]]; [rewrite Tb; auto|].
  rewrite D in H1. destruct (H1 (zeros (ab_dof ab)) (repeat_length _ _)) as (ddq' & E1 & E2). rewrite HF in E1. injection E1 as <-. exact E2.
Qed.
End Real.
