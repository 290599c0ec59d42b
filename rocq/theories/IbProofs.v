(** The base inertia is used by no query (C30). *)
From Coq Require Import List Arith ZArith Bool Lia.
From Verif Require Import Scalar Base Spatial SpecGeo Joint Body Kin InvDyn FwdDyn Opspace OpspaceAba Deriv Sim Ops Specs SpecCache TreeProofs CacheProofs CacheOps.
Import ListNotations.

Section IbProofs.
Context {S : Scal}.
Variable solve : list (list K) -> list K -> list K.
Variable pinv : list (list K) -> K -> list (list K) * bool.

(** C30: the base inertia is not used by any query. *)
Definition set_ib (J : inertia) (ab : body) : body :=
  Body (ab_name ab) (ab_graphics ab) (ab_cache ab) (ab_dof ab) (ab_rbs ab) (ab_q ab) (ab_dq ab) (ab_g ab)
       (ab_loads ab) (ab_Tbase ab) J (ab_anc ab) (ab_sub ab).
Lemma ab_name_ib J ab : ab_name (set_ib J ab) = ab_name ab.
Proof. reflexivity. Qed.
Lemma ab_graphics_ib J ab : ab_graphics (set_ib J ab) = ab_graphics ab.
Proof. reflexivity. Qed.
Lemma ab_cache_ib J ab : ab_cache (set_ib J ab) = ab_cache ab.
Proof. reflexivity. Qed.
Lemma ab_dof_ib J ab : ab_dof (set_ib J ab) = ab_dof ab.
Proof. reflexivity. Qed.
Lemma ab_rbs_ib J ab : ab_rbs (set_ib J ab) = ab_rbs ab.
Proof. reflexivity. Qed.
Lemma ab_q_ib J ab : ab_q (set_ib J ab) = ab_q ab.
Proof. reflexivity. Qed.
Lemma ab_dq_ib J ab : ab_dq (set_ib J ab) = ab_dq ab.
Proof. reflexivity. Qed.
Lemma ab_g_ib J ab : ab_g (set_ib J ab) = ab_g ab.
Proof. reflexivity. Qed.
Lemma ab_loads_ib J ab : ab_loads (set_ib J ab) = ab_loads ab.
Proof. reflexivity. Qed.
Lemma ab_Tbase_ib J ab : ab_Tbase (set_ib J ab) = ab_Tbase ab.
Proof. reflexivity. Qed.
Lemma ab_anc_ib J ab : ab_anc (set_ib J ab) = ab_anc ab.
Proof. reflexivity. Qed.
Lemma ab_sub_ib J ab : ab_sub (set_ib J ab) = ab_sub ab.
Proof. reflexivity. Qed.
Hint Rewrite ab_name_ib ab_graphics_ib ab_cache_ib ab_dof_ib ab_rbs_ib ab_q_ib ab_dq_ib ab_g_ib ab_loads_ib ab_Tbase_ib ab_anc_ib ab_sub_ib : ib.
Lemma rb_at_ib J ab : rb_at (set_ib J ab) = rb_at ab.
Proof. unfold rb_at. autorewrite with ib. reflexivity. Qed.
Hint Rewrite rb_at_ib : ib.
Lemma sub_at_ib J ab : sub_at (set_ib J ab) = sub_at ab.
Proof. unfold sub_at. autorewrite with ib. reflexivity. Qed.
Hint Rewrite sub_at_ib : ib.
Lemma par_ib J ab : par (set_ib J ab) = par ab.
Proof. unfold par. autorewrite with ib. reflexivity. Qed.
Hint Rewrite par_ib : ib.
Lemma anc_at_ib J ab : anc_at (set_ib J ab) = anc_at ab.
Proof. unfold anc_at. autorewrite with ib. reflexivity. Qed.
Hint Rewrite anc_at_ib : ib.
Lemma subt_at_ib J ab : subt_at (set_ib J ab) = subt_at ab.
Proof. unfold subt_at. autorewrite with ib. reflexivity. Qed.
Hint Rewrite subt_at_ib : ib.
Lemma inertia_at_ib J ab : inertia_at (set_ib J ab) = inertia_at ab.
Proof. unfold inertia_at. autorewrite with ib. reflexivity. Qed.
Hint Rewrite inertia_at_ib : ib.
Lemma api_rigid_body_ib J ab : api_rigid_body (set_ib J ab) = api_rigid_body ab.
Proof. unfold api_rigid_body. autorewrite with ib. reflexivity. Qed.
Hint Rewrite api_rigid_body_ib : ib.
Lemma api_ancestors_ib J ab : api_ancestors (set_ib J ab) = api_ancestors ab.
Proof. unfold api_ancestors. autorewrite with ib. reflexivity. Qed.
Hint Rewrite api_ancestors_ib : ib.
Lemma api_subtree_ib J ab : api_subtree (set_ib J ab) = api_subtree ab.
Proof. unfold api_subtree. autorewrite with ib. reflexivity. Qed.
Hint Rewrite api_subtree_ib : ib.
Lemma chain_ib J ab : chain (set_ib J ab) = chain ab.
Proof. unfold chain. autorewrite with ib. reflexivity. Qed.
Hint Rewrite chain_ib : ib.
Lemma up_chain_ib J ab : up_chain (set_ib J ab) = up_chain ab.
Proof. unfold up_chain. autorewrite with ib. reflexivity. Qed.
Hint Rewrite up_chain_ib : ib.
Lemma T_par_q_ib J ab : T_par_q (set_ib J ab) = T_par_q ab.
Proof. unfold T_par_q. autorewrite with ib. reflexivity. Qed.
Hint Rewrite T_par_q_ib : ib.
Lemma ensure_Tp_ib J ab : ensure_Tp (set_ib J ab) = ensure_Tp ab.
Proof. unfold ensure_Tp. autorewrite with ib. reflexivity. Qed.
Hint Rewrite ensure_Tp_ib : ib.
Lemma Tw_step_ib J ab : Tw_step (set_ib J ab) = Tw_step ab.
Proof. unfold Tw_step. autorewrite with ib. reflexivity. Qed.
Hint Rewrite Tw_step_ib : ib.
Lemma ensure_Tw_ib J ab : ensure_Tw (set_ib J ab) = ensure_Tw ab.
Proof. unfold ensure_Tw. autorewrite with ib. reflexivity. Qed.
Hint Rewrite ensure_Tw_ib : ib.
Lemma T_to_parent_q_ib J ab : T_to_parent_q (set_ib J ab) = T_to_parent_q ab.
Proof. unfold T_to_parent_q. autorewrite with ib. reflexivity. Qed.
Hint Rewrite T_to_parent_q_ib : ib.
Lemma T_to_world_q_ib J ab : T_to_world_q (set_ib J ab) = T_to_world_q ab.
Proof. unfold T_to_world_q. autorewrite with ib. reflexivity. Qed.
Hint Rewrite T_to_world_q_ib : ib.
Lemma Position_q_ib J ab : Position_q (set_ib J ab) = Position_q ab.
Proof. unfold Position_q. autorewrite with ib. reflexivity. Qed.
Hint Rewrite Position_q_ib : ib.
Lemma Orientation_q_ib J ab : Orientation_q (set_ib J ab) = Orientation_q ab.
Proof. unfold Orientation_q. autorewrite with ib. reflexivity. Qed.
Hint Rewrite Orientation_q_ib : ib.
Lemma CartesianPose_q_ib J ab : CartesianPose_q (set_ib J ab) = CartesianPose_q ab.
Proof. unfold CartesianPose_q. autorewrite with ib. reflexivity. Qed.
Hint Rewrite CartesianPose_q_ib : ib.
Lemma jac_col_ib J ab : jac_col (set_ib J ab) = jac_col ab.
Proof. unfold jac_col. autorewrite with ib. reflexivity. Qed.
Hint Rewrite jac_col_ib : ib.
Lemma jac_loop_ib J ab : jac_loop (set_ib J ab) = jac_loop ab.
Proof. unfold jac_loop. autorewrite with ib. reflexivity. Qed.
Hint Rewrite jac_loop_ib : ib.
Lemma ensure_jac_ib J ab : ensure_jac (set_ib J ab) = ensure_jac ab.
Proof. unfold ensure_jac. autorewrite with ib. reflexivity. Qed.
Hint Rewrite ensure_jac_ib : ib.
Lemma path_T_ib J ab : path_T (set_ib J ab) = path_T ab.
Proof. unfold path_T. autorewrite with ib. reflexivity. Qed.
Hint Rewrite path_T_ib : ib.
Lemma Jacobian_q_ib J ab : Jacobian_q (set_ib J ab) = Jacobian_q ab.
Proof. unfold Jacobian_q. autorewrite with ib. reflexivity. Qed.
Hint Rewrite Jacobian_q_ib : ib.
Lemma hess_loop_ib J ab : hess_loop (set_ib J ab) = hess_loop ab.
Proof. unfold hess_loop. autorewrite with ib. reflexivity. Qed.
Hint Rewrite hess_loop_ib : ib.
Lemma has_child_ib J ab : has_child (set_ib J ab) = has_child ab.
Proof. unfold has_child. autorewrite with ib. reflexivity. Qed.
Hint Rewrite has_child_ib : ib.
Lemma has_root_ib J ab : has_root (set_ib J ab) = has_root ab.
Proof. unfold has_root. autorewrite with ib. reflexivity. Qed.
Hint Rewrite has_root_ib : ib.
Lemma has_ext_ib J ab : has_ext (set_ib J ab) = has_ext ab.
Proof. unfold has_ext. autorewrite with ib. reflexivity. Qed.
Hint Rewrite has_ext_ib : ib.
Lemma back_step_ib J ab : back_step (set_ib J ab) = back_step ab.
Proof. unfold back_step. autorewrite with ib. reflexivity. Qed.
Hint Rewrite back_step_ib : ib.
Lemma vel_at_ib J ab : vel_at (set_ib J ab) = vel_at ab.
Proof. unfold vel_at. autorewrite with ib. reflexivity. Qed.
Hint Rewrite vel_at_ib : ib.
Lemma id_fwd_step_ib J ab : id_fwd_step (set_ib J ab) = id_fwd_step ab.
Proof. unfold id_fwd_step. autorewrite with ib. reflexivity. Qed.
Hint Rewrite id_fwd_step_ib : ib.
Lemma friction_arr_ib J ab : friction_arr (set_ib J ab) = friction_arr ab.
Proof. unfold friction_arr. autorewrite with ib. reflexivity. Qed.
Hint Rewrite friction_arr_ib : ib.
Lemma Friction_ib J ab : Friction (set_ib J ab) = Friction ab.
Proof. unfold Friction. autorewrite with ib. reflexivity. Qed.
Hint Rewrite Friction_ib : ib.
Lemma ext_f0_ib J ab : ext_f0 (set_ib J ab) = ext_f0 ab.
Proof. unfold ext_f0. autorewrite with ib. reflexivity. Qed.
Hint Rewrite ext_f0_ib : ib.
Lemma ext_torques_ib J ab : ext_torques (set_ib J ab) = ext_torques ab.
Proof. unfold ext_torques. autorewrite with ib. reflexivity. Qed.
Hint Rewrite ext_torques_ib : ib.
Lemma cc_fwd_step_ib J ab : cc_fwd_step (set_ib J ab) = cc_fwd_step ab.
Proof. unfold cc_fwd_step. autorewrite with ib. reflexivity. Qed.
Hint Rewrite cc_fwd_step_ib : ib.
Lemma ensure_cc_ib J ab : ensure_cc (set_ib J ab) = ensure_cc ab.
Proof. unfold ensure_cc. autorewrite with ib. reflexivity. Qed.
Hint Rewrite ensure_cc_ib : ib.
Lemma grav_f0_ib J ab : grav_f0 (set_ib J ab) = grav_f0 ab.
Proof. unfold grav_f0. autorewrite with ib. reflexivity. Qed.
Hint Rewrite grav_f0_ib : ib.
Lemma ensure_grav_ib J ab : ensure_grav (set_ib J ab) = ensure_grav ab.
Proof. unfold ensure_grav. autorewrite with ib. reflexivity. Qed.
Hint Rewrite ensure_grav_ib : ib.
Lemma crba_up_ib J ab : crba_up (set_ib J ab) = crba_up ab.
Proof. unfold crba_up. autorewrite with ib. reflexivity. Qed.
Hint Rewrite crba_up_ib : ib.
Lemma crba_step_ib J ab : crba_step (set_ib J ab) = crba_step ab.
Proof. unfold crba_step. autorewrite with ib. reflexivity. Qed.
Hint Rewrite crba_step_ib : ib.
Lemma ensure_crba_ib J ab : ensure_crba (set_ib J ab) = ensure_crba ab.
Proof. unfold ensure_crba. autorewrite with ib. reflexivity. Qed.
Hint Rewrite ensure_crba_ib : ib.
Lemma inverse_dynamics_ib J ab : inverse_dynamics (set_ib J ab) = inverse_dynamics ab.
Proof. unfold inverse_dynamics. autorewrite with ib. reflexivity. Qed.
Hint Rewrite inverse_dynamics_ib : ib.
Lemma ensure_crba_inv_ib J ab : ensure_crba_inv (set_ib J ab) = ensure_crba_inv ab.
Proof. unfold ensure_crba_inv. autorewrite with ib. reflexivity. Qed.
Hint Rewrite ensure_crba_inv_ib : ib.
Lemma forward_dynamics_ib J ab : forward_dynamics solve (set_ib J ab) = forward_dynamics solve ab.
Proof. unfold forward_dynamics. autorewrite with ib. reflexivity. Qed.
Hint Rewrite forward_dynamics_ib : ib.
Lemma aba_fwd_step_ib J ab : aba_fwd_step (set_ib J ab) = aba_fwd_step ab.
Proof. unfold aba_fwd_step. autorewrite with ib. reflexivity. Qed.
Hint Rewrite aba_fwd_step_ib : ib.
Lemma aba_inertia_ib J ab : aba_inertia (set_ib J ab) = aba_inertia ab.
Proof. unfold aba_inertia. autorewrite with ib. reflexivity. Qed.
Hint Rewrite aba_inertia_ib : ib.
Lemma aba_tau_ib J ab : aba_tau (set_ib J ab) = aba_tau ab.
Proof. unfold aba_tau. autorewrite with ib. reflexivity. Qed.
Hint Rewrite aba_tau_ib : ib.
Lemma aba_back_step_ib J ab : aba_back_step (set_ib J ab) = aba_back_step ab.
Proof. unfold aba_back_step. autorewrite with ib. reflexivity. Qed.
Hint Rewrite aba_back_step_ib : ib.
Lemma aba_last_step_ib J ab : aba_last_step (set_ib J ab) = aba_last_step ab.
Proof. unfold aba_last_step. autorewrite with ib. reflexivity. Qed.
Hint Rewrite aba_last_step_ib : ib.
Lemma forward_dynamics_aba_ib J ab : forward_dynamics_aba (set_ib J ab) = forward_dynamics_aba ab.
Proof. unfold forward_dynamics_aba. autorewrite with ib. reflexivity. Qed.
Hint Rewrite forward_dynamics_aba_ib : ib.
Lemma ainv_back_inner_ib J ab : ainv_back_inner (set_ib J ab) = ainv_back_inner ab.
Proof. unfold ainv_back_inner. autorewrite with ib. reflexivity. Qed.
Hint Rewrite ainv_back_inner_ib : ib.
Lemma ainv_back_step_ib J ab : ainv_back_step (set_ib J ab) = ainv_back_step ab.
Proof. unfold ainv_back_step. autorewrite with ib. reflexivity. Qed.
Hint Rewrite ainv_back_step_ib : ib.
Lemma ainv_last_inner_ib J ab : ainv_last_inner (set_ib J ab) = ainv_last_inner ab.
Proof. unfold ainv_last_inner. autorewrite with ib. reflexivity. Qed.
Hint Rewrite ainv_last_inner_ib : ib.
Lemma ensure_Ainv_ib J ab : ensure_Ainv (set_ib J ab) = ensure_Ainv ab.
Proof. unfold ensure_Ainv. autorewrite with ib. reflexivity. Qed.
Hint Rewrite ensure_Ainv_ib : ib.
Lemma ops_inertia_inverse_ib J ab : ops_inertia_inverse solve (set_ib J ab) = ops_inertia_inverse solve ab.
Proof. unfold ops_inertia_inverse. autorewrite with ib. reflexivity. Qed.
Hint Rewrite ops_inertia_inverse_ib : ib.
Lemma ops_inertia_ib J ab : ops_inertia solve pinv (set_ib J ab) = ops_inertia solve pinv ab.
Proof. unfold ops_inertia. autorewrite with ib. reflexivity. Qed.
Hint Rewrite ops_inertia_ib : ib.
Lemma ops_jbar_ib J ab : ops_jbar solve pinv (set_ib J ab) = ops_jbar solve pinv ab.
Proof. unfold ops_jbar. autorewrite with ib. reflexivity. Qed.
Hint Rewrite ops_jbar_ib : ib.
Lemma jbar_t_ib J ab : jbar_t (set_ib J ab) = jbar_t ab.
Proof. unfold jbar_t. autorewrite with ib. reflexivity. Qed.
Hint Rewrite jbar_t_ib : ib.
Lemma ops_cc_ib J ab : ops_cc solve pinv (set_ib J ab) = ops_cc solve pinv ab.
Proof. unfold ops_cc. autorewrite with ib. reflexivity. Qed.
Hint Rewrite ops_cc_ib : ib.
Lemma ops_gravity_ib J ab : ops_gravity solve pinv (set_ib J ab) = ops_gravity solve pinv ab.
Proof. unfold ops_gravity. autorewrite with ib. reflexivity. Qed.
Hint Rewrite ops_gravity_ib : ib.
Lemma ops_external_ib J ab : ops_external solve pinv (set_ib J ab) = ops_external solve pinv ab.
Proof. unfold ops_external. autorewrite with ib. reflexivity. Qed.
Hint Rewrite ops_external_ib : ib.
Lemma ops_friction_ib J ab : ops_friction solve pinv (set_ib J ab) = ops_friction solve pinv ab.
Proof. unfold ops_friction. autorewrite with ib. reflexivity. Qed.
Hint Rewrite ops_friction_ib : ib.
Lemma ops_inverse_dynamics_ib J ab : ops_inverse_dynamics solve pinv (set_ib J ab) = ops_inverse_dynamics solve pinv ab.
Proof. unfold ops_inverse_dynamics. autorewrite with ib. reflexivity. Qed.
Hint Rewrite ops_inverse_dynamics_ib : ib.
Lemma oa_fwd_step_ib J ab : oa_fwd_step (set_ib J ab) = oa_fwd_step ab.
Proof. unfold oa_fwd_step. autorewrite with ib. reflexivity. Qed.
Hint Rewrite oa_fwd_step_ib : ib.
Lemma oa_back_step_ib J ab : oa_back_step (set_ib J ab) = oa_back_step ab.
Proof. unfold oa_back_step. autorewrite with ib. reflexivity. Qed.
Hint Rewrite oa_back_step_ib : ib.
Lemma oa_acc_ib J ab : oa_acc (set_ib J ab) = oa_acc ab.
Proof. unfold oa_acc. autorewrite with ib. reflexivity. Qed.
Hint Rewrite oa_acc_ib : ib.
Lemma oa_inertia_inverse_ib J ab : oa_inertia_inverse (set_ib J ab) = oa_inertia_inverse ab.
Proof. unfold oa_inertia_inverse. autorewrite with ib. reflexivity. Qed.
Hint Rewrite oa_inertia_inverse_ib : ib.
Lemma oa_inertia_ib J ab : oa_inertia pinv (set_ib J ab) = oa_inertia pinv ab.
Proof. unfold oa_inertia. autorewrite with ib. reflexivity. Qed.
Hint Rewrite oa_inertia_ib : ib.
Lemma occ_fwd_step_ib J ab : occ_fwd_step (set_ib J ab) = occ_fwd_step ab.
Proof. unfold occ_fwd_step. autorewrite with ib. reflexivity. Qed.
Hint Rewrite occ_fwd_step_ib : ib.
Lemma occ_back_step_ib J ab : occ_back_step (set_ib J ab) = occ_back_step ab.
Proof. unfold occ_back_step. autorewrite with ib. reflexivity. Qed.
Hint Rewrite occ_back_step_ib : ib.
Lemma occ_last_ib J ab : occ_last (set_ib J ab) = occ_last ab.
Proof. unfold occ_last. autorewrite with ib. reflexivity. Qed.
Hint Rewrite occ_last_ib : ib.
Lemma oa_cc_ib J ab : oa_cc pinv (set_ib J ab) = oa_cc pinv ab.
Proof. unfold oa_cc. autorewrite with ib. reflexivity. Qed.
Hint Rewrite oa_cc_ib : ib.
Lemma og_fwd_step_ib J ab : og_fwd_step (set_ib J ab) = og_fwd_step ab.
Proof. unfold og_fwd_step. autorewrite with ib. reflexivity. Qed.
Hint Rewrite og_fwd_step_ib : ib.
Lemma oa_gravity_ib J ab : oa_gravity pinv (set_ib J ab) = oa_gravity pinv ab.
Proof. unfold oa_gravity. autorewrite with ib. reflexivity. Qed.
Hint Rewrite oa_gravity_ib : ib.
Lemma id_rnea_ib J ab : id_rnea (set_ib J ab) = id_rnea ab.
Proof. unfold id_rnea. autorewrite with ib. reflexivity. Qed.
Hint Rewrite id_rnea_ib : ib.
Lemma vd_fwd_step_ib J ab : vd_fwd_step (set_ib J ab) = vd_fwd_step ab.
Proof. unfold vd_fwd_step. autorewrite with ib. reflexivity. Qed.
Hint Rewrite vd_fwd_step_ib : ib.
Lemma vd_back_step_ib J ab : vd_back_step (set_ib J ab) = vd_back_step ab.
Proof. unfold vd_back_step. autorewrite with ib. reflexivity. Qed.
Hint Rewrite vd_back_step_ib : ib.
Lemma velocity_derivative_ib J ab : velocity_derivative (set_ib J ab) = velocity_derivative ab.
Proof. unfold velocity_derivative. autorewrite with ib. reflexivity. Qed.
Hint Rewrite velocity_derivative_ib : ib.
Lemma pd_root_col_ib J ab : pd_root_col (set_ib J ab) = pd_root_col ab.
Proof. unfold pd_root_col. autorewrite with ib. reflexivity. Qed.
Hint Rewrite pd_root_col_ib : ib.
Lemma clip_q_ib J ab : clip_q (set_ib J ab) = clip_q ab.
Proof. unfold clip_q. autorewrite with ib. reflexivity. Qed.
Hint Rewrite clip_q_ib : ib.
Lemma clip_dq_ib J ab : clip_dq (set_ib J ab) = clip_dq ab.
Proof. unfold clip_dq. autorewrite with ib. reflexivity. Qed.
Hint Rewrite clip_dq_ib : ib.
Definition lift_ib {A} (J : inertia) (r : res (body * A)) : res (body * A) :=
  match r with Ok (a, x) => Ok (set_ib J a, x) | Throw => Throw | UB => UB end.
Lemma on_cache_ib {A} J ab (f f' : cache -> res (cache * A)) : (forall c, f' c = f c) ->
  on_cache (set_ib J ab) f' = lift_ib J (on_cache ab f).
Proof.
  intros H. unfold on_cache. cbn. destruct (ab_cache ab) as [c|]; auto. rewrite H. destruct (f c) as [[c' x]| |]; auto.
Qed.
Lemma wrap_ib {A} J (f : A -> answer) r r' : r' = lift_ib J r -> wrap f r' = lift_ib J (wrap f r).
Proof. intros ->. destruct r as [[a x]| |]; reflexivity. Qed.
Lemma bind_ib {A B} J (g : A -> B) r r' : r' = lift_ib J r ->
  bind r' (fun '(ab, x) => Ok (ab, g x)) = lift_ib J (bind r (fun '(ab, x) => Ok (ab, g x))).
Proof. intros ->. destruct r as [[a x]| |]; reflexivity. Qed.
Ltac ibcache := apply on_cache_ib; let c := fresh in intros c; autorewrite with ib; reflexivity.
Lemma ask_ib J q ab : ask solve pinv q (set_ib J ab) = lift_ib J (ask solve pinv q ab).
Proof.
  destruct q; cbn [ask]; apply wrap_ib; try (unfold q_T_to_parent, q_T_to_world, q_CentrifugalCoriolis, q_Gravity, q_ExternalTorques, q_Inertia, q_CompositeInertia,
   q_Jacobian, q_Hessian, q_InertiaInverseAba, q_ops_InertiaInverseAba, q_ops_InertiaAba, q_ops_CentrifugalCoriolisAba, q_ops_GravityAba; ibcache).
  - apply bind_ib; ibcache.
  - apply bind_ib; ibcache.
  - apply bind_ib; ibcache.
  - apply bind_ib; ibcache.
  - unfold q_AngularJacobian. cbn [ab_cache set_ib]. destruct (ab_cache ab); [|reflexivity]. apply bind_ib; ibcache.
  - unfold q_InertiaInverse_solve. cbn [ab_dof set_ib]. destruct (Nat.eqb _ _); [|reflexivity]. ibcache.
  - unfold q_InverseDynamics. cbn [ab_dof set_ib]. destruct (Nat.eqb _ _); [|reflexivity]. ibcache.
  - unfold q_ForwardDynamics. cbn [ab_dof set_ib]. destruct (Nat.eqb _ _); [|reflexivity]. ibcache.
  - unfold q_ForwardDynamicsAba. cbn [ab_dof set_ib]. destruct (Nat.eqb _ _); [|reflexivity]. ibcache.
  - unfold q_VelocityDerivative. cbn [ab_dof set_ib]. destruct (o_cc o); [destruct (Nat.eqb _ _); [|reflexivity]|]; ibcache.
  - unfold q_PositionDerivative. cbn [ab_dof set_ib]. destruct (Nat.eqb _ _); [|reflexivity]. ibcache.
  - unfold q_ops_InertiaInverse, with_J. cbn [ab_dof set_ib]. destruct (shape _ _ _); [|reflexivity]. ibcache.
  - unfold q_ops_Inertia, with_J. cbn [ab_dof set_ib]. destruct (shape _ _ _); [|reflexivity]. ibcache.
  - unfold q_ops_JacobianDynamicInverse, with_J. cbn [ab_dof set_ib]. destruct (shape _ _ _); [|reflexivity]. ibcache.
  - unfold q_ops_IsSingular, with_J. cbn [ab_dof set_ib]. destruct (shape _ _ _); [|reflexivity]. ibcache.
  - unfold q_ops_CentrifugalCoriolis, with_J. cbn [ab_dof set_ib]. destruct (shape _ _ _); [|reflexivity]. ibcache.
  - unfold q_ops_Gravity, with_J. cbn [ab_dof set_ib]. destruct (shape _ _ _); [|reflexivity]. ibcache.
  - unfold q_ops_ExternalForces, with_J. cbn [ab_dof set_ib]. destruct (shape _ _ _); [|reflexivity]. ibcache.
  - unfold q_ops_Friction, with_J. cbn [ab_dof set_ib]. destruct (Nat.ltb _ _); [reflexivity|]. destruct (shape _ _ _); [|reflexivity]. ibcache.
  - unfold q_ops_InverseDynamics, with_J. cbn [ab_dof set_ib]. destruct (negb _); [reflexivity|].
    destruct N as [[|]|]; [|destruct (shape (ab_dof ab) _ _); [|reflexivity]|]; (destruct (shape _ _ J0); [|reflexivity]); ibcache.
Qed.
Lemma sim_fd_ib J aba tau fe o ab : sim_fd solve aba tau fe o (set_ib J ab) = lift_ib J (sim_fd solve aba tau fe o ab).
Proof.
  unfold sim_fd. destruct aba.
  - pose proof (ask_ib J (QAba tau fe o) ab) as X. cbn [ask] in X. unfold wrap in X.
    unfold q_ForwardDynamicsAba in *. cbn [ab_dof set_ib] in *. destruct (Nat.eqb _ _); [|reflexivity]. ibcache.
  - unfold q_ForwardDynamics. cbn [ab_dof set_ib]. destruct (Nat.eqb _ _); [|reflexivity]. ibcache.
Qed.
Definition rmap {A B} (f : A -> B) (r : res A) : res B := match r with Ok a => Ok (f a) | Throw => Throw | UB => UB end.
Lemma set_q_ib J q ab : called (set_q q (set_ib J ab)) = rmap (set_ib J) (called (set_q q ab)).
Proof. unfold set_q. cbn. repeat (match goal with |- context[if ?b then _ else _] => destruct b end); reflexivity. Qed.
Lemma set_dq_ib J q ab : called (set_dq q (set_ib J ab)) = rmap (set_ib J) (called (set_dq q ab)).
Proof. unfold set_dq. cbn. repeat (match goal with |- context[if ?b then _ else _] => destruct b end); reflexivity. Qed.
Lemma put_ib J io q dq ab : put io q dq (set_ib J ab) = rmap (set_ib J) (put io q dq ab).
Proof.
  unfold put. change (clip_q (set_ib J ab) q) with (clip_q ab q). destruct (if i_limits io then clip_q ab q else Ok q) as [q'| |]; cbn; auto.
  rewrite set_q_ib. destruct (called (set_q q' ab)) as [a| |]; cbn; auto. apply set_dq_ib.
Qed.
Lemma integrate_ib J fd io dt ab : (forall a, fd (set_ib J a) = lift_ib J (fd a)) ->
  integrate fd io dt (set_ib J ab) = rmap (set_ib J) (integrate fd io dt ab).
Proof.
  intros H. unfold integrate. rewrite H. destruct (fd ab) as [[a0 x0]| |]; cbn [lift_ib bind rmap]; auto.
  destruct (i_method io).
  - cbn [ab_dof ab_q ab_dq set_ib]. apply put_ib.
  - cbn [ab_dof ab_q ab_dq set_ib]. rewrite put_ib. destruct (put _ _ _ a0) as [a1| |]; cbn [rmap bind]; auto.
    rewrite H. destruct (fd a1) as [[a2 x2]| |]; cbn [lift_ib bind rmap ab_dq set_ib]; auto. apply put_ib.
  - cbn [ab_dof ab_q ab_dq set_ib]. rewrite put_ib. destruct (put _ _ _ a0) as [a1| |]; cbn [rmap bind]; auto.
    rewrite H. destruct (fd a1) as [[a2 x2]| |]; cbn [lift_ib bind rmap ab_dq set_ib]; auto.
    rewrite put_ib. destruct (put _ _ _ a2) as [a3| |]; cbn [rmap bind]; auto.
    rewrite H. destruct (fd a3) as [[a4 x4]| |]; cbn [lift_ib bind rmap ab_dq set_ib]; auto.
    rewrite put_ib. destruct (put _ _ _ a4) as [a5| |]; cbn [rmap bind]; auto.
    rewrite H. destruct (fd a5) as [[a6 x6]| |]; cbn [lift_ib bind rmap ab_dq set_ib]; auto. apply put_ib.
Qed.
Lemma step_ib J o ab : exists J', step solve pinv o (set_ib J ab) = option_map (set_ib J') (step solve pinv o ab).
Proof.
  destruct o; cbn [step].
  - exists J. unfold add_rigid_body. cbn. destruct (_ || _)%Z; reflexivity.
  - exists J. unfold set_q. cbn. repeat (match goal with |- context[if ?b then _ else _] => destruct b end); reflexivity.
  - exists J. unfold set_dq. cbn. repeat (match goal with |- context[if ?b then _ else _] => destruct b end); reflexivity.
  - exists J. reflexivity.
  - exists J. unfold add_load, set_loads. cbn. destruct (ab_cache ab); reflexivity.
  - exists J. unfold replace_load, set_loads. cbn. destruct (ab_cache ab); reflexivity.
  - exists J. unfold clear_load, set_loads. cbn. destruct (ab_cache ab); reflexivity.
  - exists J. reflexivity.
  - unfold set_inertia_base. destruct (klt _ _); cbn; eexists; reflexivity.
  - exists unit_mass. unfold body_copy. cbn. destruct (ab_cache ab); reflexivity.
  - exists J. rewrite integrate_ib by (intros; apply sim_fd_ib). destruct (integrate _ _ _ ab); reflexivity.
  - exists J. rewrite ask_ib. destruct (ask solve pinv q ab) as [[a x]| |]; cbn; auto.
    destruct q; auto.
    pose proof (ask_ib J (QoID (match N with Some ((_ :: _) as M) => lmul (List.length J0) (ab_dof ab) (ab_dof ab) J0 M | _ => J0 end) ddx None fe fe_empty
       (OpsOpts (p_grav o) false false (p_svd o) (p_stic o) (p_facc o))) ab) as X. cbn [ask] in X.
    change (ab_dof (set_ib J ab)) with (ab_dof ab).
    destruct (q_ops_InverseDynamics _ _ _ _ _ _ _ _ ab) as [[a1 [y1 y2]]| |]; cbn in X;
    destruct (q_ops_InverseDynamics _ _ _ _ _ _ _ _ (set_ib J ab)) as [[a2 [z1 z2]]| |]; cbn in X; inversion X; subst; auto.
Qed.
Lemma run_ib h : forall J ab, exists J', run solve pinv h (set_ib J ab) = option_map (set_ib J') (run solve pinv h ab).
Proof.
  induction h as [|o h IH]; intros J ab; cbn [run].
  - exists J. reflexivity.
  - destruct (step_ib J o ab) as [J' E]. rewrite E. destruct (step solve pinv o ab) as [a|]; cbn; [apply IH|]. exists J; auto.
Qed.
(** Same observables, base inertia apart. *)
Lemma c30_gen ab J h : match run solve pinv h ab, run solve pinv h (set_ib J ab) with
  | Some a, Some b => (exists J', b = set_ib J' a) /\ forall q, outcome (ask solve pinv q b) = outcome (ask solve pinv q a)
  | None, None => True
  | _, _ => False
  end.
Proof.
  destruct (run_ib h J ab) as [J' E]. rewrite E. destruct (run solve pinv h ab) as [a|]; cbn; auto.
  split; [eexists; reflexivity|]. intros q. rewrite ask_ib. destruct (ask solve pinv q a) as [[b x]| |]; reflexivity.
Qed.
Lemma same_ib J ab : same_but_base_inertia ab (set_ib J ab).
Proof. repeat split. Qed.
Lemma alike_ib J ab : behave_alike solve pinv ab (set_ib J ab).
Proof.
  split; [apply same_ib|]. intros h. pose proof (c30_gen ab J h) as X.
  destruct (run solve pinv h ab) as [a|], (run solve pinv h (set_ib J ab)) as [b|]; auto.
  destruct X as [[J' ->] X]. split; [apply same_ib|]. intros q. symmetry. apply X.
Qed.
Lemma c30_copy ab : reachable solve pinv ab -> exists ab', body_copy ab = Ok ab' /\ behave_alike solve pinv ab ab' /\ ab_Ibase ab' = unit_mass.
Proof.
  intros [h R]. pose proof (tree_reached _ _ _ _ R) as T. destruct (tk_cache _ T) as [c E].
  exists (set_ib unit_mass ab). split; [unfold body_copy; rewrite E; unfold set_ib; rewrite E; reflexivity|]. split; [apply alike_ib|reflexivity].
Qed.
Lemma c30_assign dst ab : reachable solve pinv ab -> exists ab', body_assign dst ab = Ok ab' /\ behave_alike solve pinv ab ab' /\ ab_Ibase ab' = ab_Ibase dst.
Proof.
  intros [h R]. pose proof (tree_reached _ _ _ _ R) as T. destruct (tk_cache _ T) as [c E].
  exists (set_ib (ab_Ibase dst) ab). split; [unfold body_assign; rewrite E; unfold set_ib; rewrite E; reflexivity|]. split; [apply alike_ib|reflexivity].
Qed.
Lemma c30_move ab : behave_alike solve pinv ab (fst (body_move ab)) /\ ab_Ibase (fst (body_move ab)) = unit_mass.
Proof. split; [apply (alike_ib unit_mass ab)|reflexivity]. Qed.
Lemma c30_moved_from ab : let m := snd (body_move ab) in
  (forall q, ask solve pinv q m = UB \/ ask solve pinv q m = Throw) /\ (forall J i, add_load J i m = Bad /\ replace_load J i m = Bad /\ clear_load i m = Bad) /\ body_copy m = UB /\ (forall dst, body_assign dst m = UB) /\ (forall g, exists m', set_g g m = Ret m' tt) /\ (0 < ab_dof ab -> forall q, set_q q m = Exn m /\ List.length q <> ab_dof ab \/ set_q q m = Bad /\ List.length q = ab_dof ab) /\ (0 < ab_dof ab -> forall q, set_dq q m = Exn m /\ List.length q <> ab_dof ab \/ set_dq q m = Bad /\ List.length q = ab_dof ab).
Proof.
  cbn zeta. split; [|split; [|split; [|split; [|split; [|split]]]]].
  - intros q. destruct q; cbn [ask];
    try (left; reflexivity).
    all: unfold q_InertiaInverse_solve, q_InverseDynamics, q_ForwardDynamics, q_ForwardDynamicsAba, q_VelocityDerivative, q_PositionDerivative,
      q_ops_InertiaInverse, q_ops_Inertia, q_ops_JacobianDynamicInverse, q_ops_IsSingular, q_ops_CentrifugalCoriolis, q_ops_Gravity,
      q_ops_ExternalForces, q_ops_Friction, q_ops_InverseDynamics, with_J.
    all: repeat match goal with |- context[if ?b then _ else _] => destruct b | |- context[match ?b with None => _ | Some _ => _ end] => destruct b as [[|]|] end; auto.
  - intros; repeat split.
  - reflexivity.
  - reflexivity.
  - intros; eexists; reflexivity.
  - intros H q. unfold set_q. cbn. destruct (Nat.eqb_spec (List.length q) (ab_dof ab)) as [E|E]; cbn; [|left; auto].
    right. split; auto. rewrite E. destruct (ab_dof ab); [lia|reflexivity].
  - intros H q. unfold set_dq. cbn. destruct (Nat.eqb_spec (List.length q) (ab_dof ab)) as [E|E]; cbn; [|left; auto].
    right. split; auto. rewrite E. destruct (ab_dof ab); [lia|reflexivity].
Qed.
End IbProofs.
