(** Robots held by friction (C58). *)
From Coq Require Import List Arith ZArith Bool Lia Reals Lra.
From Verif Require Import Scalar Base Spatial Joint Body Kin InvDyn FwdDyn Opspace OpspaceAba Deriv Sim Ops Instances Specs SpecCache SpecKin SpecDyn SpecSim SpecHold
  TreeProofs CacheProofs CacheOps DynProofs DynApi SimProofs DiscreteStill HoldProofs.
Import ListNotations.
Local Existing Instances RScal RLaws RPos REq.
Local Open Scope R_scope.

Lemma c58_stiction (solve : list (list (@K RScal)) -> list (@K RScal) -> list (@K RScal)) (pinv : list (list (@K RScal)) -> @K RScal -> list (list (@K RScal)) * bool) h (ab : @body RScal) A G E tau fe o steps :
  reached solve pinv h ab -> base_fixed false h = true -> proper ab ->
  outcome (ask solve pinv QInertia ab) = Ok (AMat A) -> solver_ok solve (ab_dof ab) A -> injective (ab_dof ab) A ->
  outcome (ask solve pinv QGrav ab) = Ok (AVec G) -> outcome (ask solve pinv (QExt fe) ab) = Ok (AVec E) ->
  at_rest ab -> o_fric o = true -> 0 <= o_stic o -> List.length tau = ab_dof ab ->
  (forall i, (i < ab_dof ab)%nat -> friction_coefficients (joint_i ab i) /\
     Rabs (@coef RScal tau i - @coef RScal E i - (if o_grav o then @coef RScal G i else 0)) <= jcoulomb (joint_i ab i) + jstiction (joint_i ab i)) ->
  (forall io dt, In (io, dt) steps -> i_limits io = true -> in_limits ab) ->
  exists ab', integrated solve false tau fe o steps ab = Ok ab' /\ unmoved ab ab'.
Proof.
  intros Rc B P HA SO IJ HG HE Z Ho Hs Lt Ht HL. destruct (@reached_wfc RScal solve pinv laws_comm h ab Rc B) as [T W].
  cbn [ask] in HG, HE. rewrite outcome_wrap, (out_Grav ab T W) in HG. rewrite outcome_wrap, (out_Ext ab T W) in HE. cbn in HG, HE. inversion HG; subst G. inversion HE; subst E. clear HG HE.
  destruct (integrated_kept solve pinv ab T W P A HA SO IJ tau fe o steps Lt Z) with (a := ab) as (a' & E & (c & -> & _)); auto.
  - intros i Hi. destruct (Ht i Hi) as [FC HR]. unfold fd_rhs. rewrite Ho. cbn zeta. rewrite !(@coef_vec RScal) in HR by auto.
    rewrite (Cv_still ab i T (pr_rigid _ P) Z Hi). unfold friction_arr. rewrite (Cv_still ab i T (pr_rigid _ P) Z Hi).
    match goal with |- context [friction1 _ _ ?x _ _] => set (d := x) end.
    change (rb_joint (rb_at ab i)) with (joint_i ab i). pose proof (Z i Hi) as Zi. change (@coef RScal (ab_dq ab) i) with (@qk RScal (ab_dq ab) i) in Zi. rewrite Zi.
    destruct FC as (C1 & C2 & C3).
    rewrite friction_static; [|auto|left; cbn [k0 RScal]; rewrite Rabs_R0; auto].
    change (@k0 RScal) with 0. cbn [ksub RScal].
    assert (HD : Rabs d <= jcoulomb (joint_i ab i) + jstiction (joint_i ab i)).
    { eapply Rle_trans; [|exact HR]. right. f_equal. unfold d. cbn [ksub kadd k0 RScal]. change (@qk RScal tau i) with (@coef RScal tau i). destruct (o_cc o), (o_grav o); match goal with |- ?a = ?b => change (@eq R a b) end; ring. }
    destruct (static_bounds (jcoulomb (joint_i ab i) + jstiction (joint_i ab i)) d ltac:(lra)) as (_ & _ & _ & _ & SB). specialize (SB HD). rewrite SB. match goal with |- ?a = ?b => change (@eq R a b) end. ring.
  - apply kept_self; auto.
  - eexists. split; [exact E|]. exists c. auto.
Qed.
