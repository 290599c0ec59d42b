(** Energy along motions (C15, C23). *)
From Coq Require Import List Arith ZArith Bool Lia Reals Lra.
From Verif Require Import Scalar Base Spatial SpecGeo Joint Body Kin InvDyn FwdDyn Opspace OpspaceAba Deriv Sim Ops Instances Specs SpecCache SpecKin SpecDyn SpecReal SpatialTac SpatialProofs TreeProofs CacheProofs CacheOps JointProofs BigSum KinProofs WorldProofs DynProofs LoadProofs DynApi RealDyn RealCalc RealMotion EnergyProofs.
Import ListNotations.
Local Existing Instances RScal RLaws RPos REq.
Local Open Scope R_scope.
Ltac toR := match goal with |- @eq _ ?a ?b => change (@eq R a b) end.

Section Gen.
Context {S : Scal}.
Lemma set_q_total (ab : body) q : tree_ok ab -> List.length q = ab_dof ab -> exists ab', set_q q ab = Ret ab' tt /\ tree_ok ab' /\ ab_dof ab' = ab_dof ab.
Proof.
  intros T Hq. assert (X : exists ab', set_q q ab = Ret ab' tt).
  { unfold set_q. rewrite Hq, (tk_q _ T), Nat.eqb_refl. cbn [negb]. destruct (veqb (ab_q ab) q); eexists; reflexivity. }
  destruct X as [ab' E]. exists ab'. split; auto. split; [eapply tree_set_q; eauto|]. apply set_q_frame in E. destruct E as [F _]. destruct F as [F _]. auto.
Qed.
Lemma set_dq_total (ab : body) q : tree_ok ab -> List.length q = ab_dof ab -> exists ab', set_dq q ab = Ret ab' tt.
Proof.
  intros T Hq. unfold set_dq. rewrite Hq, (tk_dq _ T), Nat.eqb_refl. cbn [negb]. destruct (veqb (ab_dq ab) q); eexists; reflexivity.
Qed.
Lemma run_app solve pinv h1 h2 ab : run solve pinv (h1 ++ h2) ab = match run solve pinv h1 ab with Some ab' => run solve pinv h2 ab' | None => None end.
Proof. revert ab. induction h1 as [|o h IH]; cbn; intros ab; auto. destruct (step solve pinv o ab); auto. Qed.
Lemma base_fixed_app h b q dq : base_fixed b h = true -> base_fixed b (h ++ [OSetQ q; OSetDq dq]) = true.
Proof.
  revert b. induction h as [|o h IH]; cbn; intros b H; auto. destruct o; cbn; auto.
  apply andb_true_iff in H. destruct H as [-> H]. cbn. auto.
Qed.
Lemma ask_ID {L : ScalLaws S} {PL : PosLaws S} solve pinv (ab : body) ddq fe o : tree_ok ab -> wfc ab -> proper ab -> List.length ddq = ab_dof ab ->
  outcome (ask solve pinv (QID ddq fe o) ab) = Ok (AVec (vec (ab_dof ab) (plus_friction ab o (id_base ab o ddq fe)))).
Proof. intros T W P E. cbn [ask]. rewrite outcome_wrap, (out_ID ab T W) by auto. rewrite E, Nat.eqb_refl. reflexivity. Qed.
End Gen.

Section Api.
Variable solve : list (list R) -> list R -> list R.
Variable pinv : list (list R) -> R -> list (list R) * bool.

Lemma veqb_eq (a b : list R) : @veqb RScal a b = true -> a = b.
Proof.
  revert b. induction a as [|x a IH]; destruct b as [|y b]; cbn; try discriminate; auto.
  intros H. apply andb_true_iff in H. destruct H as [H1 H2]. apply (@keq_sound RScal REq) in H1. rewrite (IH b); auto. subst; auto.
Qed.
Lemma placed_at ab q dq ab' : placed ab q dq ab' -> List.length q = ab_dof ab /\ List.length dq = ab_dof ab /\ ab' = set_cache (at_ ab q dq) (ab_cache ab').
Proof.
  intros (ab1 & E1 & E2). unfold set_q in E1. unfold set_dq in E2.
  match type of E1 with (if negb ?c then _ else _) = _ => destruct c eqn:Hq end; cbn [negb] in E1; [|discriminate]. apply Nat.eqb_eq in Hq.
  match type of E1 with (if negb ?c then _ else _) = _ => destruct c end; cbn [negb] in E1; [|discriminate].
  match type of E2 with (if negb ?c then _ else _) = _ => destruct c eqn:Hd end; cbn [negb] in E2; [|discriminate]. apply Nat.eqb_eq in Hd.
  match type of E2 with (if negb ?c then _ else _) = _ => destruct c end; cbn [negb] in E2; [|discriminate].
  change (list (@K RScal)) with (list R) in *.
  destruct (veqb (ab_q ab) q) eqn:V1; inversion E1; subst; clear E1; cbn [ab_dq ab_dof] in *.
  - apply veqb_eq in V1. subst. destruct (veqb (ab_dq ab1) dq) eqn:V2; inversion E2; subst; clear E2.
    + apply veqb_eq in V2. subst. split; auto. split; auto. destruct ab'; reflexivity.
    + auto.
  - destruct (veqb (ab_dq ab) dq) eqn:V2; inversion E2; subst; clear E2.
    + apply veqb_eq in V2. subst. auto.
    + auto.
Qed.
Lemma placed_exists h ab q dq : reached solve pinv h ab -> List.length q = ab_dof ab -> List.length dq = ab_dof ab -> exists ab', placed ab q dq ab'.
Proof.
  intros Rh Hq Hd. pose proof (tree_reached _ _ _ _ Rh) as T.
  destruct (@set_q_total RScal ab q T Hq) as (ab1 & E1 & T1 & D1).
  destruct (@set_dq_total RScal ab1 dq T1) as (ab2 & E2); [rewrite D1; exact Hd|]. exists ab2, ab1. auto.
Qed.
Lemma placed_reached h ab q dq ab' : reached solve pinv h ab -> placed ab q dq ab' -> reached solve pinv (h ++ [OSetQ q; OSetDq dq]) ab'.
Proof.
  intros (nm & mem & E) (ab1 & E1 & E2). exists nm, mem. rewrite run_app, E. cbn [run step]. rewrite E1. cbn [settled]. rewrite E2. reflexivity.
Qed.
Lemma at_proper ab q dq c : proper ab -> proper (set_cache (at_ ab q dq) c).
Proof. intros [A B C]. constructor; auto. Qed.

Lemma potential_unique ab q U V : potential ab q U -> potential ab q V -> U = V.
Proof.
  intros (P & HP & ->) (Q & HQ & ->). f_equal. apply (@over_bodies_ext RScal). intros k B Hk _. toR. f_equal. f_equal.
  specialize (HP k (icom B) Hk). specialize (HQ k (icom B) Hk). congruence.
Qed.

(** ** C15 *)
Lemma grav_jall h ab : reached solve pinv h ab -> base_fixed false h = true -> proper ab ->
  exists G, outcome (ask solve pinv QGrav ab) = Ok (AVec G) /\ List.length G = ab_dof ab /\
    forall i, (i < ab_dof ab)%nat -> @coef RScal G i = - over_bodies ab (fun k B => imass B * v3dot (mlin (ab_g ab)) (mlin (col (Jall ab k (icom B)) i))).
Proof.
  intros Rh Bf P. destruct (@c15 RScal RLaws RPos solve pinv h ab Rh Bf P) as (J & G & HJ & HG & HL & HE).
  pose proof (tree_reached _ _ _ _ Rh) as T.
  exists G. split; auto. split; auto. intros i Hi. rewrite HE by auto. toR. change (@kopp RScal ?x) with (- x). f_equal. apply (@over_bodies_ext RScal). intros k B Hk _.
  pose proof (HJ k (icom B) Hk) as E1. rewrite (Jall_ok ab T k (icom B) Hk) in E1. injection E1 as E1. rewrite <- E1. reflexivity.
Qed.
Lemma c15_potential h ab j : reached solve pinv h ab -> base_fixed false h = true -> proper ab -> proper_joints ab -> (j < ab_dof ab)%nat ->
  exists U G, (forall x, potential ab (replaced (ab_q ab) j x) (U x)) /\ outcome (ask solve pinv QGrav ab) = Ok (AVec G) /\
    derivable_pt_lim U (@coef RScal (ab_q ab) j) (@coef RScal G j).
Proof.
  intros Rh Bf P Pj Hj. pose proof (tree_reached _ _ _ _ Rh) as T. destruct (grav_jall h ab Rh Bf P) as (G & HG & HL & HE).
  destruct (potential_motion solve pinv h ab (replaced (ab_q ab) j) (@coef RScal (ab_q ab) j) (vec (ab_dof ab) (fun i => if Nat.eqb i j then 1 else 0)) G) as (U & HU & HD); auto.
  - intros u. rewrite replaced_length. apply (tk_q _ T).
  - apply vec_length.
  - apply replaced_deriv. apply (tk_q _ T).
  - intros i Hi. rewrite HE by auto. rewrite replaced_same. reflexivity.
  - exists U, G. split; auto. split; auto. eapply d_eq; [exact HD|]. unfold inner. rewrite vec_length.
    rewrite (@total_ksum RScal RLaws). rewrite <- (@ksum_single RScal RLaws (ab_dof ab) j (fun i => @coef RScal G i) Hj). apply (@ksum_ext RScal). intros i Hi.
    rewrite (@coef_vec RScal) by auto. destruct (Nat.eqb i j); rr.
Qed.

(** ** C23 *)
Lemma inner_ksum (x y : list R) n : List.length x = n -> inner x y = @ksum RScal n (fun i => @qk RScal x i * @qk RScal y i).
Proof. intros <-. unfold inner. rewrite (@total_ksum RScal RLaws). reflexivity. Qed.
Lemma d_ksum n (f : R -> nat -> R) (f' : nat -> R) t : (forall i, (i < n)%nat -> derivable_pt_lim (fun u => f u i) t (f' i)) ->
  derivable_pt_lim (fun u => @ksum RScal n (f u)) t (@ksum RScal n f').
Proof.
  induction n; intros H; cbn [ksum]; [apply d_const|]. cbn [kadd RScal]. apply d_add; auto.
Qed.
Definition quiet : id_opts := IdOpts false true false (@klit RScal 1 100).
Lemma kinetic_rate h ab q dq rob t ddq : reached solve pinv h ab -> base_fixed false h = true -> proper ab -> proper_joints ab ->
  moving ab q dq rob t ddq ->
  exists E, (forall u, kinetic_energy solve pinv (rob u) (dq u) (E u)) /\
    derivable_pt_lim E t (@ksum RScal (ab_dof ab) (fun i => @qk RScal (dq t) i * @id_base RScal (at_ ab (q t) (dq t)) quiet ddq (fun _ => None) i)).
Proof.
  intros Rh Bf P Pj [Mp Ml Mq Md]. pose proof (tree_reached _ _ _ _ Rh) as T.
  assert (Lq : forall u, List.length (q u) = ab_dof ab) by (intros u; apply (placed_at _ _ _ _ (Mp u))).
  assert (Ld : forall u, List.length (dq u) = ab_dof ab) by (intros u; apply (placed_at _ _ _ _ (Mp u))).
  assert (Tu : forall u, tree_ok (at_ ab (q u) (dq u))) by (intros; apply at_tree; auto).
  assert (Pu : forall u, proper (at_ ab (q u) (dq u))) by (intros; destruct P; constructor; auto).
  exists (fun u => @quad RScal (mat (ab_dof ab) (ab_dof ab) (Av (at_ ab (q u) (dq u)))) (dq u) (dq u) / 2). split.
  - intros u. exists (mat (ab_dof ab) (ab_dof ab) (Av (at_ ab (q u) (dq u)))). split; auto.
    destruct (placed_at _ _ _ _ (Mp u)) as (_ & _ & E).
    destruct (@reached_wfc RScal solve pinv (@laws_comm RScal RLaws) _ _ (placed_reached _ _ _ _ _ Rh (Mp u)) (base_fixed_app _ _ _ _ Bf)) as [T' W'].
    cbn [ask]. rewrite outcome_wrap, (out_Inertia _ T' W'). cbn [bind]. rewrite E. reflexivity.
  - eapply d_ext with (g := fun u => @ksum RScal (ab_dof ab) (fun k => @mdot RScal (velv (at_ ab (q u) (dq u)) k) (imul (inertia_at ab k) (velv (at_ ab (q u) (dq u)) k))) * / 2).
    { intros u. unfold Rdiv. f_equal. pose proof (@kinetic_sum RScal RLaws RPos (at_ ab (q u) (dq u)) (Tu u) (Pu u) (Ld u)) as X. exact X. }
    eapply d_eq.
    + apply d_mul; [|apply d_const]. apply d_ksum. intros k Hk. apply energy_deriv; [apply (proper_sym _ P); auto|].
      apply (vel_deriv ab T (pr_rigid _ P) Pj q dq Lq Ld t Mq ddq Md quiet); auto.
    + assert (X : @ksum RScal (ab_dof ab) (fun i => @qk RScal (dq t) i * @id_base RScal (at_ ab (q t) (dq t)) quiet ddq (fun _ => None) i) =
                  @ksum RScal (ab_dof ab) (fun i => @kmul RScal (@qk RScal (dq t) i) (@back RScal (at_ ab (q t) (dq t)) (idf0 (at_ ab (q t) (dq t)) quiet ddq (fun _ => None)) i))).
      { apply (@ksum_ext RScal). intros i Hi. rewrite (@id_decomp RScal RLaws (at_ ab (q t) (dq t)) (Tu t) (pr_rigid _ (Pu t)) RPos (proper_mass _ (Pu t)) (proper_sym _ (Pu t)) quiet ddq (fun _ => None) i Hi). reflexivity. }
      rewrite X. pose proof (@inertial_power RScal RLaws (at_ ab (q t) (dq t)) (Tu t) (Pu t) quiet ddq eq_refl eq_refl) as Y.
      change (ab_dof (at_ ab (q t) (dq t))) with (ab_dof ab) in Y. change (ab_dq (at_ ab (q t) (dq t))) with (dq t) in Y. rewrite Y.
      change (inertia_at (at_ ab (q t) (dq t))) with (inertia_at ab).
      pose proof (@ksum_scale RScal RLaws (ab_dof ab) 2 (fun k => @mdot RScal (velv (at_ ab (q t) (dq t)) k) (imul (inertia_at ab k) (accv (at_ ab (q t) (dq t)) quiet ddq k)))) as Z.
      toR. match goal with |- ?a * _ + _ * 0 = ?b => assert (E : a = 2 * b) by exact Z; rewrite E; field end.
Qed.
Lemma c23_kinetic h ab q dq rob t ddq o : reached solve pinv h ab -> base_fixed false h = true -> proper ab -> proper_joints ab ->
  moving ab q dq rob t ddq -> o_grav o = false -> o_cc o = true -> o_fric o = false ->
  exists E tau, (forall u, kinetic_energy solve pinv (rob u) (dq u) (E u)) /\
    outcome (ask solve pinv (QID ddq (fun _ => None) o) (rob t)) = Ok (AVec tau) /\
    derivable_pt_lim E t (inner (dq t) tau).
Proof.
  intros Rh Bf P Pj M Og Oc Of. destruct (kinetic_rate h ab q dq rob t ddq Rh Bf P Pj M) as (E & HE & HD).
  destruct (placed_at _ _ _ _ (mv_placed _ _ _ _ _ _ M t)) as (Lq & Ld & Ea).
  destruct (@reached_wfc RScal solve pinv (@laws_comm RScal RLaws) _ _ (placed_reached _ _ _ _ _ Rh (mv_placed _ _ _ _ _ _ M t)) (base_fixed_app _ _ _ _ Bf)) as [T' W'].
  assert (P' : proper (rob t)) by (rewrite Ea; apply at_proper; auto).
  assert (Dn : ab_dof (rob t) = ab_dof ab) by (rewrite Ea; reflexivity).
  exists E, (vec (ab_dof ab) (@id_base RScal (at_ ab (q t) (dq t)) o ddq (fun _ => None))). split; auto. split.
  - rewrite (@ask_ID RScal RLaws RPos solve pinv (rob t) ddq (fun _ => None) o T' W' P') by (rewrite Dn; apply M). rewrite Dn.
    unfold plus_friction. rewrite Of, Ea. reflexivity.
  - eapply d_eq; [exact HD|]. rewrite (inner_ksum _ _ (ab_dof ab)) by auto. apply (@ksum_ext RScal). intros i Hi. rewrite (@qk_vec RScal) by auto.
    f_equal. unfold id_base. cbn [quiet o_cc o_grav]. rewrite Og, Oc. reflexivity.
Qed.
Lemma c23_total h ab q dq rob t ddq o fe : reached solve pinv h ab -> base_fixed false h = true -> proper ab -> proper_joints ab ->
  moving ab q dq rob t ddq -> o_grav o = true -> o_cc o = true -> o_fric o = false ->
  exists E tau X, (forall u, energy solve pinv (rob u) (E u)) /\
    outcome (ask solve pinv (QID ddq fe o) (rob t)) = Ok (AVec tau) /\
    outcome (ask solve pinv (QExt fe) (rob t)) = Ok (AVec X) /\
    derivable_pt_lim E t (inner (dq t) tau - inner (dq t) X).
Proof.
  intros Rh Bf P Pj M Og Oc Of. destruct (kinetic_rate h ab q dq rob t ddq Rh Bf P Pj M) as (E & HE & HD).
  pose proof (tree_reached _ _ _ _ Rh) as T.
  destruct (placed_at _ _ _ _ (mv_placed _ _ _ _ _ _ M t)) as (Lq & Ld & Ea).
  pose proof (placed_reached _ _ _ _ _ Rh (mv_placed _ _ _ _ _ _ M t)) as Rt. pose proof (base_fixed_app _ _ (q t) (dq t) Bf) as Bt.
  destruct (@reached_wfc RScal solve pinv (@laws_comm RScal RLaws) _ _ Rt Bt) as [T' W'].
  assert (P' : proper (rob t)) by (rewrite Ea; apply at_proper; auto).
  assert (Dn : ab_dof (rob t) = ab_dof ab) by (rewrite Ea; reflexivity).
  destruct (grav_jall _ _ Rt Bt P') as (G & HG & HGl & HGe).
  assert (Lq' : forall u, List.length (q u) = ab_dof ab) by (intros u; apply (placed_at _ _ _ _ (mv_placed _ _ _ _ _ _ M u))).
  destruct (potential_motion solve pinv h ab q t (dq t) G Rh Bf P Pj Lq' Ld (mv_q _ _ _ _ _ _ M)) as (U & HU & HUd).
  { intros i Hi. rewrite HGe by (rewrite Dn; auto). rewrite Ea. reflexivity. }
  exists (fun u => E u + U u), (vec (ab_dof ab) (@id_base RScal (at_ ab (q t) (dq t)) o ddq fe)), (vec (ab_dof ab) (Extv (at_ ab (q t) (dq t)) fe)).
  split; [|split; [|split]].
  - intros u. exists (E u), (U u). destruct (placed_at _ _ _ _ (mv_placed _ _ _ _ _ _ M u)) as (_ & _ & Eu).
    assert (E1 : ab_dq (rob u) = dq u) by (rewrite Eu; reflexivity). assert (E2 : ab_q (rob u) = q u) by (rewrite Eu; reflexivity).
    rewrite E1, E2. split; auto. split; auto. rewrite Eu. exact (HU u).
  - rewrite (@ask_ID RScal RLaws RPos solve pinv (rob t) ddq fe o T' W' P') by (rewrite Dn; apply M). rewrite Dn.
    unfold plus_friction. rewrite Of, Ea. reflexivity.
  - cbn [ask]. rewrite outcome_wrap, (out_Ext (rob t) T' W' fe). cbn [bind]. rewrite Ea. reflexivity.
  - assert (GV : forall i, (i < ab_dof ab)%nat -> @qk RScal G i = Gv (at_ ab (q t) (dq t)) i).
    { intros i Hi. cbn [ask] in HG. rewrite outcome_wrap, (out_Grav (rob t) T' W') in HG. cbn [bind] in HG. injection HG as <-.
      rewrite Dn, (@qk_vec RScal) by auto. rewrite Ea. reflexivity. }
    eapply d_eq; [apply d_add; [exact HD|exact HUd]|].
    rewrite !(inner_ksum _ _ (ab_dof ab)) by auto.
    match goal with |- _ = ?a - ?b => transitivity (a + (-1) * b); [|ring] end.
    rewrite <- (@ksum_scale RScal RLaws). cbn [kmul RScal].
    match goal with |- ?a + ?b = ?c + ?d => change (@kadd RScal a b = @kadd RScal c d) end.
    rewrite <- !(@ksum_add RScal RLaws). apply (@ksum_ext RScal). intros i Hi.
    rewrite !(@qk_vec RScal), GV by auto. unfold id_base. cbn [quiet o_cc o_grav]. rewrite Og, Oc.
    assert (Z : Extv (at_ ab (q t) (dq t)) (fun _ => None) i = 0).
    { unfold Extv. rewrite (@back_ext RScal RLaws (at_ ab (q t) (dq t)) (at_tree ab _ _ T Lq Ld) (pr_rigid _ P) _ (fun _ => fzero)) by auto.
      apply (@back_zero RScal RLaws (at_ ab (q t) (dq t)) (at_tree ab _ _ T Lq Ld) (pr_rigid _ P)); auto. }
    rewrite Z. toR. cbn [kadd kmul k0 RScal]. ring.
Qed.

(** ** Conservation *)
Lemma kinetic_unique ab dq E F : kinetic_energy solve pinv ab dq E -> kinetic_energy solve pinv ab dq F -> E = F.
Proof. intros (A & H1 & ->) (B & H2 & ->). rewrite H1 in H2. injection H2 as ->. auto. Qed.
Lemma energy_unique ab E F : energy solve pinv ab E -> energy solve pinv ab F -> E = F.
Proof.
  intros (a & b & H1 & H2 & ->) (c & d & H3 & H4 & ->). f_equal; [eapply kinetic_unique; eauto|eapply potential_unique; eauto].
Qed.
Lemma constant_of (f : R -> R) : (forall t, derivable_pt_lim f t 0) -> forall s t, f s = f t.
Proof.
  intros H. assert (pr : derivable f) by (intros x; exists 0; apply H).
  apply (null_derivative_1 f pr). intros x. apply derive_pt_eq_0. apply H.
Qed.
Lemma qk_zeros n i : @qk RScal (zeros n) i = 0.
Proof. unfold qk, zeros. apply nth_repeat. Qed.
Lemma inner_zeros x n : inner x (zeros n) = 0.
Proof.
  rewrite (inner_ksum x _ (List.length x)) by auto. apply (@ksum_zero RScal RLaws). intros i _. rewrite qk_zeros. rr.
Qed.
Lemma free_torque h ab q dq rob t ddq o : reached solve pinv h ab -> base_fixed false h = true -> proper ab ->
  moving ab q dq rob t ddq -> o_fric o = false ->
  (forall A, outcome (ask solve pinv QInertia (rob t)) = Ok (AMat A) -> solver_ok solve (ab_dof ab) A) ->
  outcome (ask solve pinv (QFD (zeros (ab_dof ab)) (fun _ => None) o) (rob t)) = Ok (AVec ddq) ->
  outcome (ask solve pinv (QID ddq (fun _ => None) o) (rob t)) = Ok (AVec (zeros (ab_dof ab))).
Proof.
  intros Rh Bf P M Of HS HF. destruct (placed_at _ _ _ _ (mv_placed _ _ _ _ _ _ M t)) as (Lq & Ld & Ea).
  pose proof (placed_reached _ _ _ _ _ Rh (mv_placed _ _ _ _ _ _ M t)) as Rt. pose proof (base_fixed_app _ _ (q t) (dq t) Bf) as Bt.
  assert (P' : proper (rob t)) by (rewrite Ea; apply at_proper; auto).
  assert (Dn : ab_dof (rob t) = ab_dof ab) by (rewrite Ea; reflexivity).
  destruct (@c17 RScal RLaws RPos solve pinv _ _ (fun _ => None) o Rt Bt P' Of) as (A & HA & HC).
  rewrite Dn in HC. destruct (HC (HS A HA)) as [H1 _]. destruct (H1 (zeros (ab_dof ab))) as (ddq' & E1 & E2); [apply repeat_length|].
  rewrite HF in E1. injection E1 as <-. exact E2.
Qed.
Lemma ext_none h ab q dq ab' : reached solve pinv h ab -> base_fixed false h = true -> proper ab -> placed ab q dq ab' ->
  outcome (ask solve pinv (QExt (fun _ => None)) ab') = Ok (AVec (zeros (ab_dof ab))).
Proof.
  intros Rh Bf P M. destruct (placed_at _ _ _ _ M) as (Lq & Ld & Ea).
  destruct (@reached_wfc RScal solve pinv (@laws_comm RScal RLaws) _ _ (placed_reached _ _ _ _ _ Rh M) (base_fixed_app _ _ _ _ Bf)) as [T' W'].
  assert (P' : proper ab') by (rewrite Ea; apply at_proper; auto).
  assert (Dn : ab_dof ab' = ab_dof ab) by (rewrite Ea; reflexivity).
  cbn [ask]. rewrite outcome_wrap, (out_Ext ab' T' W'), Dn. cbn [bind]. do 2 f_equal.
  apply (@list_coef_ext RScal (ab_dof ab)); [apply vec_length|apply repeat_length|]. intros i Hi. rewrite (@coef_vec RScal) by auto.
  change (@coef RScal (zeros (ab_dof ab)) i) with (@qk RScal (zeros (ab_dof ab)) i). rewrite qk_zeros.
  unfold Extv. rewrite (@back_ext RScal RLaws ab' T' (pr_rigid _ P') _ (fun _ => fzero)) by (auto; rewrite Dn; auto).
  apply (@back_zero RScal RLaws ab' T' (pr_rigid _ P')); rewrite Dn; auto.
Qed.
Lemma conserved_of h ab q dq ddq rob o : reached solve pinv h ab -> base_fixed false h = true -> proper ab -> proper_joints ab ->
  (forall t, moving ab q dq rob t (ddq t)) -> o_cc o = true -> o_fric o = false ->
  (forall t, outcome (ask solve pinv (QID (ddq t) (fun _ => None) o) (rob t)) = Ok (AVec (zeros (ab_dof ab)))) ->
  (o_grav o = true -> exists E, forall t, energy solve pinv (rob t) E) /\
  (o_grav o = false -> exists E, forall t, kinetic_energy solve pinv (rob t) (dq t) E).
Proof.
  intros Rh Bf P Pj M Oc Of TQ.
  split; intros Og.
  - assert (X : forall t, exists E, (forall u, energy solve pinv (rob u) (E u)) /\ derivable_pt_lim E t 0).
    { intros t. destruct (c23_total h ab q dq rob t (ddq t) o (fun _ => None) Rh Bf P Pj (M t) Og Oc Of) as (E & tau & Xf & H1 & H2 & H3 & H4).
      exists E. split; auto. rewrite TQ in H2. injection H2 as <-.
      rewrite (ext_none h ab (q t) (dq t) (rob t) Rh Bf P (mv_placed _ _ _ _ _ _ (M t) t)) in H3. injection H3 as <-.
      rewrite !inner_zeros in H4. eapply d_eq; [exact H4|ring]. }
    destruct (X 0) as (E & HE & _). exists (E 0). intros t. rewrite (constant_of E) with (t := t); auto.
    intros s. destruct (X s) as (F & HF' & HD). eapply d_ext; [|exact HD]. intros u. eapply energy_unique; eauto.
  - assert (X : forall t, exists E, (forall u, kinetic_energy solve pinv (rob u) (dq u) (E u)) /\ derivable_pt_lim E t 0).
    { intros t. destruct (c23_kinetic h ab q dq rob t (ddq t) o Rh Bf P Pj (M t) Og Oc Of) as (E & tau & H1 & H2 & H4).
      exists E. split; auto. rewrite TQ in H2. injection H2 as <-. rewrite inner_zeros in H4. exact H4. }
    destruct (X 0) as (E & HE & _). exists (E 0). intros t. rewrite (constant_of E) with (t := t); auto.
    intros s. destruct (X s) as (F & HF' & HD). eapply d_ext; [|exact HD]. intros u. eapply kinetic_unique; eauto.
Qed.
Lemma c23_conserved h ab q dq ddq rob o : reached solve pinv h ab -> base_fixed false h = true -> proper ab -> proper_joints ab ->
  (forall t, moving ab q dq rob t (ddq t)) -> o_cc o = true -> o_fric o = false ->
  (forall t A, outcome (ask solve pinv QInertia (rob t)) = Ok (AMat A) -> solver_ok solve (ab_dof ab) A) ->
  (forall t, outcome (ask solve pinv (QFD (zeros (ab_dof ab)) (fun _ => None) o) (rob t)) = Ok (AVec (ddq t))) ->
  (o_grav o = true -> exists E, forall t, energy solve pinv (rob t) E) /\
  (o_grav o = false -> exists E, forall t, kinetic_energy solve pinv (rob t) (dq t) E).
Proof.
  intros Rh Bf P Pj M Oc Of HS HF. apply (conserved_of h ab q dq ddq rob o); auto. intros t; eapply free_torque; eauto.
Qed.
End Api.
