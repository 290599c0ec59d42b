(** The discrete-dynamics cache along a history (C47, C48). *)
From Coq Require Import List Arith ZArith Bool Lia.
From Verif Require Import Scalar Base Spatial Joint Body Kin InvDyn FwdDyn Opspace OpspaceAba Deriv Sim Ops Discrete Specs SpecCache SpecDiscrete TreeProofs CacheProofs CacheOps OpsCache.
Import ListNotations.

Section DiscreteCache.
Context {S : Scal}.
Variable solve : list (list K) -> list K -> list K.
Variable pinv : list (list K) -> K -> list (list K) * bool.

(** ** Calls that leave the discrete-dynamics cache alone *)
Lemma dr_Tp ab c : ca_dr (ensure_Tp ab c) = ca_dr c.
Proof. unfold ensure_Tp. destruct (is_Tp _); reflexivity. Qed.
Lemma dr_Tw ab c : ca_dr (ensure_Tw ab c) = ca_dr c.
Proof. unfold ensure_Tw. destruct (is_Tw _); [reflexivity|]. apply dr_Tp. Qed.
Lemma dr_if (b : bool) c c' : ca_dr c' = ca_dr c -> ca_dr (if b then c' else c) = ca_dr c.
Proof. destruct b; auto. Qed.
Lemma dr_jac ab l off c : ca_dr (ensure_jac ab l off c) = ca_dr c.
Proof. unfold ensure_jac. destruct (_ && _); [reflexivity|]. apply dr_Tw. Qed.
Lemma dr_cc ab c : ca_dr (ensure_cc ab c) = ca_dr c.
Proof.
  unfold ensure_cc. destruct (is_cc _); [reflexivity|]. destruct (for_up _ _ _) as [[v cc] f]. destruct (for_down _ _ _) as [C f']. cbn.
  apply dr_if, dr_Tp.
Qed.
Lemma dr_grav ab c : ca_dr (ensure_grav ab c) = ca_dr c.
Proof.
  unfold ensure_grav. destruct (is_grav _); [reflexivity|]. destruct (for_down _ _ _) as [C f']. cbn.
  destruct (has_child ab); rewrite ?dr_Tp; apply dr_if, dr_Tw.
Qed.
Lemma dr_ext ab fe c : ca_dr (fst (ext_torques ab fe c)) = ca_dr c.
Proof.
  unfold ext_torques. destruct (for_down _ _ _) as [t f]. cbn. destruct (has_ext ab fe); rewrite ?dr_Tw; apply dr_if, dr_Tp.
Qed.
Lemma dr_crba ab c : ca_dr (ensure_crba ab c) = ca_dr c.
Proof. unfold ensure_crba. destruct (is_crba _); [reflexivity|]. destruct (for_down _ _ _) as [t f]. cbn. apply dr_if, dr_Tp. Qed.
Lemma dr_crba_inv ab c : ca_dr (ensure_crba_inv ab c) = ca_dr c.
Proof. unfold ensure_crba_inv. destruct (is_crba_inv _); [reflexivity|]. apply dr_crba. Qed.
Lemma dr_id ab ddq fe o c : ca_dr (fst (inverse_dynamics ab ddq fe o c)) = ca_dr c.
Proof.
  unfold inverse_dynamics. destruct (_ && _).
  - pose proof (dr_ext ab fe c) as X. destruct (ext_torques ab fe c). exact X.
  - destruct (for_up _ _ _) as [[v a] f]. destruct (for_down _ _ _) as [t f']. cbn.
    destruct (has_child ab); rewrite ?dr_Tp; apply dr_if, dr_Tw.
Qed.
Lemma dr_fd ab tau fe o c : ca_dr (fst (forward_dynamics solve ab tau fe o c)) = ca_dr c.
Proof.
  unfold forward_dynamics. pose proof (dr_id ab (vec (ab_dof ab) (fun _ => k0)) fe (IdOpts (o_grav o) (o_cc o) false (klit 1 100)) c) as X.
  destruct (inverse_dynamics _ _ _ _ _). cbn in *. rewrite dr_crba_inv. exact X.
Qed.
Lemma dr_rnea ab ddq fe o c : ca_dr (id_rnea ab ddq fe o c) = ca_dr c.
Proof.
  unfold id_rnea. pose proof (dr_id ab ddq fe o (clear_crba c)) as X. destruct (inverse_dynamics _ _ _ _ _). exact X.
Qed.
Lemma dr_vd ab ddq fe o c : ca_dr (fst (velocity_derivative ab ddq fe o c)) = ca_dr c.
Proof.
  unfold velocity_derivative. destruct (negb _); [reflexivity|]. destruct (for_up _ _ _) as [[v a] f]. destruct (for_down _ _ _) as [t f'].
  cbn. destruct (has_child ab); rewrite ?dr_Tp; apply dr_rnea.
Qed.
Lemma dr_Ainv ab c : ca_dr (ensure_Ainv ab c) = ca_dr c.
Proof.
  unfold ensure_Ainv. destruct (is_Ainv _); [reflexivity|]. destruct (for_down _ _ _) as [[[Ia h] d] [X P]].
  match goal with |- context [for_up ?n ?f (X, ?z)] => destruct (for_up n f (X, z)) as [X' A'] end. cbn. apply dr_if, dr_Tp.
Qed.
Lemma dr_fda ab tau fe o c : ca_dr (fst (forward_dynamics_aba ab tau fe o c)) = ca_dr c.
Proof.
  unfold forward_dynamics_aba. set (c1 := if has_ext ab fe then ensure_Tw ab c else c).
  set (c2 := if has_child ab || _ then ensure_Tp ab c1 else c1).
  assert (E2 : ca_dr c2 = ca_dr c) by (unfold c2, c1; destruct (_ || _); rewrite ?dr_Tp; apply dr_if, dr_Tw). clearbody c2.
  destruct (for_up _ _ _) as [[[v a] Ia] f]. destruct (for_down _ _ _) as [[[[Ia' h] d] f'] x']. destruct (for_up _ _ _) as [a'' x'']. exact E2.
Qed.
Lemma dr_oainv ab l off c : ca_dr (oa_inertia_inverse ab l off c) = ca_dr c.
Proof.
  unfold oa_inertia_inverse. destruct (_ && _); [reflexivity|]. destruct (for_up _ _ _) as [Ia p]. destruct (for_down _ _ _) as [[[Ia' h] d] [p' u]].
  cbn. rewrite dr_Tp. apply dr_Tw.
Qed.
Lemma dr_oain ab l off eps c : ca_dr (oa_inertia pinv ab l off eps c) = ca_dr c.
Proof. unfold oa_inertia. destruct (_ && _); [reflexivity|]. cbn. apply dr_oainv. Qed.
Lemma dr_oacc ab l off eps c : ca_dr (fst (oa_cc pinv ab l off eps c)) = ca_dr c.
Proof.
  unfold oa_cc. destruct (for_up _ _ _) as [[[v a] Ia] f]. destruct (for_down _ _ _) as [[[[Ia' h] d] f'] x]. cbn [fst].
  rewrite dr_oain, dr_Tw. cbn. apply dr_Tp.
Qed.
Lemma dr_oagrav ab l off fe eps c : ca_dr (fst (oa_gravity pinv ab l off fe eps c)) = ca_dr c.
Proof.
  unfold oa_gravity. destruct (for_up _ _ _) as [Ia f]. destruct (for_down _ _ _) as [[[[Ia' h] d] f'] x]. cbn [fst].
  rewrite dr_oain. cbn. rewrite dr_Tp. apply dr_Tw.
Qed.
Lemma dr_linv ab J c : ca_dr (ops_inertia_inverse solve ab J c) = ca_dr c.
Proof. unfold ops_inertia_inverse. destruct (_ && _); [reflexivity|]. cbn. apply dr_crba_inv. Qed.
Lemma dr_lam ab J e c : ca_dr (ops_inertia solve pinv ab J e c) = ca_dr c.
Proof. unfold ops_inertia. destruct (_ && _); [reflexivity|]. destruct (pinv _ _). cbn. apply dr_linv. Qed.
Lemma dr_jb ab J e c : ca_dr (ops_jbar solve pinv ab J e c) = ca_dr c.
Proof. unfold ops_jbar. destruct (_ && _); [reflexivity|]. cbn. apply dr_lam. Qed.
Lemma dr_ocext ab J fe e c : ca_dr (fst (ops_external solve pinv ab J fe e c)) = ca_dr c.
Proof.
  unfold ops_external. pose proof (dr_ext ab fe (ops_jbar solve pinv ab J e c)) as X. destruct (ext_torques _ _ _).
  cbn in *. rewrite X. apply dr_jb.
Qed.
Lemma dr_ocgrav ab J e c : ca_dr (fst (ops_gravity solve pinv ab J e c)) = ca_dr c.
Proof. unfold ops_gravity. cbn. rewrite dr_grav. apply dr_jb. Qed.
Lemma dr_occ ab J l e c c' x : ops_cc solve pinv ab J l e c = Ok (c', x) -> ca_dr c' = ca_dr c.
Proof.
  unfold ops_cc. destruct (negb _); [discriminate|]. destruct (idx _ _); [|discriminate]. intros H; inversion H; subst.
  rewrite dr_Tw, dr_lam, dr_cc. apply dr_jb.
Qed.
Lemma dr_oid ab J ddx N fe b o c c' x : ops_inverse_dynamics solve pinv ab J ddx N fe b o c = Ok (c', x) -> ca_dr c' = ca_dr c.
Proof.
  unfold ops_inverse_dynamics. set (Jx := match N with Some ((_ :: _) as M) => _ | _ => J end).
  set (c1 := ops_inertia _ _ _ _ _ _). assert (E1 : ca_dr c1 = ca_dr c) by apply dr_lam. clearbody c1.
  match goal with |- context [if b then (c1, ?F0) else ?e] => set (st := if b then (c1, F0) else e);
    assert (E2 : ca_dr (fst st) = ca_dr c) end.
  { unfold st. destruct b; [exact E1|]. pose proof (dr_ocext ab Jx fe (p_svd o) c1) as X. destruct (ops_external _ _ _ _ _ _ _). cbn in *. congruence. }
  clearbody st. destruct st as [c2 F2]. cbn in E2.
  match goal with |- context [if p_grav o then ?e else (c2, F2)] => set (st := if p_grav o then e else (c2, F2));
    assert (E3 : ca_dr (fst st) = ca_dr c) end.
  { unfold st. destruct (p_grav o); [|exact E2]. pose proof (dr_ocgrav ab Jx (p_svd o) c2) as X. destruct (ops_gravity _ _ _ _ _ _). cbn in *. congruence. }
  clearbody st. destruct st as [c3 F3]. cbn in E3.
  match goal with |- bind ?e _ = _ -> _ => destruct e as [[c4 F4]| |] eqn:Q; cbn [bind]; try discriminate end.
  assert (E4 : ca_dr c4 = ca_dr c).
  { destruct (p_cc o); [|inversion Q; subst; exact E3]. destruct (ops_cc _ _ _ _ _ _ _) as [[c5 y]| |] eqn:Q2; cbn in Q; try discriminate.
    inversion Q; subst. apply dr_occ in Q2. congruence. }
  clear Q.
  assert (X5 : forall F, ca_dr (fst (if p_fric o then let '(c, x) := ops_friction solve pinv ab Jx (lmulv (ab_dof ab) (List.length J) (ltr (List.length J) (ab_dof ab) Jx) F4) (p_svd o) (p_stic o) c4 in (c, vadd F4 x) else (c4, F))) = ca_dr c).
  { intros F. destruct (p_fric o); [|exact E4]. unfold ops_friction. cbn. rewrite dr_jb. exact E4. }
  specialize (X5 F4). destruct (if p_fric o then _ else _) as [c5 F5]. cbn in X5.
  destruct N as [M|].
  - intros H; inversion H; subst. rewrite dr_jb. exact X5.
  - intros H; inversion H; subst. exact X5.
Qed.

(** ** Queries *)
Definition keeps_dr (ab ab' : body) : Prop :=
  forall c, ab_cache ab = Some c -> exists c', ab_cache ab' = Some c' /\ ca_dr c' = ca_dr c.
Lemma on_cache_dr {X} ab (f : cache -> res (cache * X)) ab' x :
  (forall c c' y, f c = Ok (c', y) -> ca_dr c' = ca_dr c) -> on_cache ab f = Ok (ab', x) -> keeps_dr ab ab'.
Proof.
  intros H E c Ec. unfold on_cache in E. rewrite Ec in E. destruct (f c) as [[c' y]| |] eqn:F; cbn in E; try discriminate.
  inversion E; subst. exists c'. split; auto. eapply H; eauto.
Qed.
Ltac okinv := let H := fresh in intros H; inversion H; subst; clear H.
Ltac same := cbn [ca_dr with_rnea with_aba with_vel with_oa with_op fst];
   rewrite ?dr_Tp, ?dr_Tw, ?dr_jac, ?dr_cc, ?dr_grav, ?dr_crba, ?dr_crba_inv, ?dr_Ainv, ?dr_oainv, ?dr_oain, ?dr_rnea, ?dr_linv, ?dr_lam, ?dr_jb; try reflexivity; auto.

Lemma ask_dr q ab ab' x : ask solve pinv q ab = Ok (ab', x) -> keeps_dr ab ab'.
Proof.
  intros E.
  assert (OT : forall l a1 t, q_T_to_world l ab = Ok (a1, t) -> keeps_dr ab a1).
  { intros l a1 t Q. revert Q. apply on_cache_dr. intros c c' z. destruct (idx _ _); [|discriminate]. okinv. same. }
  assert (OJ : forall l off a1 t, q_Jacobian l off ab = Ok (a1, t) -> keeps_dr ab a1).
  { intros l off a1 t Q. revert Q. apply on_cache_dr. intros c c' z. destruct (idx _ _); [|discriminate]. okinv. same. }
  destruct q; cbn in E; apply wrap_inv in E; destruct E as (y & E & _).
  - revert E. apply on_cache_dr. intros c c' z. destruct (idx _ _); [|discriminate]. okinv. same.
  - eapply OT; eauto.
  - unfold q_Position, bind in E. destruct (q_T_to_world l ab) as [[a1 t]| |] eqn:Q; try discriminate. inversion E; subst. eapply OT; eauto.
  - unfold q_Orientation, bind in E. destruct (q_T_to_world l ab) as [[a1 t]| |] eqn:Q; try discriminate. inversion E; subst. eapply OT; eauto.
  - unfold q_CartesianPose, bind in E. destruct (q_T_to_world l ab) as [[a1 t]| |] eqn:Q; try discriminate. inversion E; subst. eapply OT; eauto.
  - eapply OJ; eauto.
  - unfold q_LinearJacobian, bind in E. destruct (q_Jacobian l off ab) as [[a1 t]| |] eqn:Q; try discriminate. inversion E; subst. eapply OJ; eauto.
  - unfold q_AngularJacobian, bind in E. destruct (ab_cache ab) as [c0|]; [|discriminate].
    destruct (q_Jacobian l _ ab) as [[a1 t]| |] eqn:Q; try discriminate. inversion E; subst. eapply OJ; eauto.
  - revert E. apply on_cache_dr. intros c c' z. destruct (idx _ _) eqn:Q; [|discriminate]. okinv. same.
  - revert E. apply on_cache_dr. intros c c' z. okinv. same.
  - revert E. apply on_cache_dr. intros c c' z. okinv. same.
  - revert E. apply on_cache_dr. intros c c' z. pose proof (dr_ext ab fe c) as X.
    destruct (ext_torques ab fe c). okinv. same.
  - revert E. apply on_cache_dr. intros c c' z. okinv. same.
  - revert E. apply on_cache_dr. intros c c' z. destruct (idx _ _); [|discriminate]. okinv. same.
  - unfold q_InertiaInverse_solve in E. destruct (Nat.eqb _ _); [|discriminate].
    revert E. apply on_cache_dr. intros c c' z. okinv. same.
  - unfold q_InverseDynamics in E. destruct (Nat.eqb _ _); [|discriminate].
    revert E. apply on_cache_dr. intros c c' z. pose proof (dr_id ab ddq fe o c) as X.
    destruct (inverse_dynamics ab ddq fe o c). okinv. same.
  - unfold q_ForwardDynamics in E. destruct (Nat.eqb _ _); [|discriminate].
    revert E. apply on_cache_dr. intros c c' z. pose proof (dr_fd ab tau fe o c) as X.
    destruct (forward_dynamics _ ab tau fe o c). okinv. same.
  - unfold q_ForwardDynamicsAba in E. destruct (Nat.eqb _ _); [|discriminate].
    revert E. apply on_cache_dr. intros c c' z. pose proof (dr_fda ab tau fe o c) as X.
    destruct (forward_dynamics_aba ab tau fe o c). okinv. same.
  - revert E. apply on_cache_dr. intros c c' z. okinv. same.
  - unfold q_VelocityDerivative in E.
    assert (X : forall c c' z, (let '(c, t) := velocity_derivative ab ddq fe o c in Ok (c, mat (ab_dof ab) (ab_dof ab) t)) = Ok (c', z) -> ca_dr c' = ca_dr c).
    { intros c c' z. pose proof (dr_vd ab ddq fe o c) as X. destruct (velocity_derivative ab ddq fe o c). okinv. same. }
    destruct (o_cc o); [destruct (Nat.eqb _ _); [|discriminate]|]; revert E; apply on_cache_dr; exact X.
  - unfold q_PositionDerivative in E. destruct (Nat.eqb _ _); [|discriminate].
    revert E. apply on_cache_dr. intros c c' z. destruct (_ && _); [discriminate|]. okinv. same.
    destruct (_ || _); rewrite ?dr_Tw; apply dr_rnea.
  - unfold q_ops_InertiaInverse, with_J in E. destruct (shape _ _ _); [|discriminate].
    revert E. apply on_cache_dr. intros c c' z. okinv. same.
  - unfold q_ops_Inertia, with_J in E. destruct (shape _ _ _); [|discriminate].
    revert E. apply on_cache_dr. intros c c' z. okinv. same.
  - unfold q_ops_JacobianDynamicInverse, with_J in E. destruct (shape _ _ _); [|discriminate].
    revert E. apply on_cache_dr. intros c c' z. okinv. same.
  - unfold q_ops_IsSingular, with_J in E. destruct (shape _ _ _); [|discriminate].
    revert E. apply on_cache_dr. intros c c' z. okinv. same.
  - unfold q_ops_CentrifugalCoriolis, with_J in E. destruct (shape _ _ _); [|discriminate].
    revert E. apply on_cache_dr. intros c c' z H. eapply dr_occ; eauto.
  - unfold q_ops_Gravity, with_J in E. destruct (shape _ _ _); [|discriminate].
    revert E. apply on_cache_dr. intros c c' z. pose proof (dr_ocgrav ab J eps c) as X. destruct (ops_gravity _ _ _ _ _ _). okinv. exact X.
  - unfold q_ops_ExternalForces, with_J in E. destruct (shape _ _ _); [|discriminate].
    revert E. apply on_cache_dr. intros c c' z. pose proof (dr_ocext ab J fe eps c) as X. destruct (ops_external _ _ _ _ _ _ _). okinv. exact X.
  - unfold q_ops_Friction, with_J in E. destruct (Nat.ltb _ _); [discriminate|]. destruct (shape _ _ _); [|discriminate].
    revert E. apply on_cache_dr. intros c c' z. unfold ops_friction. okinv. same.
  - assert (X : forall c c' z, ops_inverse_dynamics solve pinv ab J ddx N fe fe_empty o c = Ok (c', z) -> ca_dr c' = ca_dr c).
    { intros c c' z H. eapply dr_oid; eauto. }
    unfold q_ops_InverseDynamics, with_J in E. destruct (negb _); [discriminate|].
    destruct N as [[|]|]; [|destruct (shape (ab_dof ab) _ _); [|discriminate]|];
      (destruct (shape _ _ J); [|discriminate]); revert E; apply on_cache_dr; exact X.
  - revert E. apply on_cache_dr. intros c c' z. destruct (idx _ _); [|discriminate]. okinv. same.
  - revert E. apply on_cache_dr. intros c c' z. destruct (idx _ _); [|discriminate]. okinv. same.
  - revert E. apply on_cache_dr. intros c c' z. destruct (idx _ _) as [m|]; [|discriminate]. intros H.
    pose proof (dr_oacc ab m off eps c) as X. destruct (oa_cc _ _ _ _ _ _). inversion H; subst. same.
  - revert E. apply on_cache_dr. intros c c' z. destruct (idx _ _) as [m|]; [|discriminate]. intros H.
    pose proof (dr_oagrav ab m off fe eps c) as X. destruct (oa_gravity _ _ _ _ _ _ _). inversion H; subst. same.
Qed.
End DiscreteCache.
