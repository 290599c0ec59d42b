(** The operational-space articulated-body cache along a history. *)
From Coq Require Import List Arith ZArith Bool Lia.
From Verif Require Import Scalar Base Spatial SpecGeo Joint Body Kin InvDyn FwdDyn Opspace OpspaceAba Deriv Sim Ops Specs SpecCache SpecKin SpecDyn SpecAba SpatialProofs TreeProofs CacheProofs CacheOps WorldProofs AbaProofs AinvProofs AbaOps DynApi AbaCache OaValues.
Import ListNotations.

Section OaCache.
Context {S : Scal} {L : ScalLaws S} {ES : EqSound S}.
Variable solve : list (list K) -> list K -> list K.
Variable pinv : list (list K) -> K -> list (list K) * bool.

(** ** Calls that leave the operational-space articulated-body cache alone *)
Lemma oo_Tp ab c : ca_oa (ensure_Tp ab c) = ca_oa c.
Proof. unfold ensure_Tp. destruct (is_Tp _); reflexivity. Qed.
Lemma oo_Tw ab c : ca_oa (ensure_Tw ab c) = ca_oa c.
Proof. unfold ensure_Tw. destruct (is_Tw _); [reflexivity|]. apply oo_Tp. Qed.
Lemma oo_if (b : bool) c c' : ca_oa c' = ca_oa c -> ca_oa (if b then c' else c) = ca_oa c.
Proof. destruct b; auto. Qed.
Lemma oo_jac ab l off c : ca_oa (ensure_jac ab l off c) = ca_oa c.
Proof. unfold ensure_jac. destruct (_ && _); [reflexivity|]. apply oo_Tw. Qed.
Lemma oo_cc ab c : ca_oa (ensure_cc ab c) = ca_oa c.
Proof.
  unfold ensure_cc. destruct (is_cc _); [reflexivity|]. destruct (for_up _ _ _) as [[v cc] f]. destruct (for_down _ _ _) as [C f']. cbn.
  apply oo_if, oo_Tp.
Qed.
Lemma oo_grav ab c : ca_oa (ensure_grav ab c) = ca_oa c.
Proof.
  unfold ensure_grav. destruct (is_grav _); [reflexivity|]. destruct (for_down _ _ _) as [C f']. cbn.
  destruct (has_child ab); rewrite ?oo_Tp; apply oo_if, oo_Tw.
Qed.
Lemma oo_ext ab fe c : ca_oa (fst (ext_torques ab fe c)) = ca_oa c.
Proof.
  unfold ext_torques. destruct (for_down _ _ _) as [t f]. cbn. destruct (has_ext ab fe); rewrite ?oo_Tw; apply oo_if, oo_Tp.
Qed.
Lemma oo_crba ab c : ca_oa (ensure_crba ab c) = ca_oa c.
Proof. unfold ensure_crba. destruct (is_crba _); [reflexivity|]. destruct (for_down _ _ _) as [t f]. cbn. apply oo_if, oo_Tp. Qed.
Lemma oo_crba_inv ab c : ca_oa (ensure_crba_inv ab c) = ca_oa c.
Proof. unfold ensure_crba_inv. destruct (is_crba_inv _); [reflexivity|]. apply oo_crba. Qed.
Lemma oo_id ab ddq fe o c : ca_oa (fst (inverse_dynamics ab ddq fe o c)) = ca_oa c.
Proof.
  unfold inverse_dynamics. destruct (_ && _).
  - pose proof (oo_ext ab fe c) as X. destruct (ext_torques ab fe c). exact X.
  - destruct (for_up _ _ _) as [[v a] f]. destruct (for_down _ _ _) as [t f']. cbn.
    destruct (has_child ab); rewrite ?oo_Tp; apply oo_if, oo_Tw.
Qed.
Lemma oo_fd ab tau fe o c : ca_oa (fst (forward_dynamics solve ab tau fe o c)) = ca_oa c.
Proof.
  unfold forward_dynamics. pose proof (oo_id ab (vec (ab_dof ab) (fun _ => k0)) fe (IdOpts (o_grav o) (o_cc o) false (klit 1 100)) c) as X.
  destruct (inverse_dynamics _ _ _ _ _). cbn in *. rewrite oo_crba_inv. exact X.
Qed.
Lemma oo_rnea ab ddq fe o c : ca_oa (id_rnea ab ddq fe o c) = ca_oa c.
Proof.
  unfold id_rnea. pose proof (oo_id ab ddq fe o (clear_crba c)) as X. destruct (inverse_dynamics _ _ _ _ _). exact X.
Qed.
Lemma oo_vd ab ddq fe o c : ca_oa (fst (velocity_derivative ab ddq fe o c)) = ca_oa c.
Proof.
  unfold velocity_derivative. destruct (negb _); [reflexivity|]. destruct (for_up _ _ _) as [[v a] f]. destruct (for_down _ _ _) as [t f'].
  cbn. destruct (has_child ab); rewrite ?oo_Tp; apply oo_rnea.
Qed.
Lemma oo_oinv ab J c : ca_oa (ops_inertia_inverse solve ab J c) = ca_oa c.
Proof. unfold ops_inertia_inverse. destruct (_ && _); [reflexivity|]. apply oo_crba_inv. Qed.
Lemma oo_oin ab J eps c : ca_oa (ops_inertia solve pinv ab J eps c) = ca_oa c.
Proof. unfold ops_inertia. destruct (_ && _); [reflexivity|]. destruct (pinv _ _). apply oo_oinv. Qed.
Lemma oo_ojbar ab J eps c : ca_oa (ops_jbar solve pinv ab J eps c) = ca_oa c.
Proof. unfold ops_jbar. destruct (_ && _); [reflexivity|]. apply oo_oin. Qed.
Lemma oo_occ ab J l eps c c' x : ops_cc solve pinv ab J l eps c = Ok (c', x) -> ca_oa c' = ca_oa c.
Proof.
  unfold ops_cc. destruct (negb _); [discriminate|]. destruct (idx _ _); [|discriminate]. intros H; inversion H.
  rewrite oo_Tw, oo_oin, oo_cc, oo_ojbar. auto.
Qed.
Lemma oo_ograv ab J eps c : ca_oa (fst (ops_gravity solve pinv ab J eps c)) = ca_oa c.
Proof. cbn. rewrite oo_grav, oo_ojbar. auto. Qed.
Lemma oo_oext ab J fe eps c : ca_oa (fst (ops_external solve pinv ab J fe eps c)) = ca_oa c.
Proof.
  unfold ops_external. pose proof (oo_ext ab fe (ops_jbar solve pinv ab J eps c)) as X. destruct (ext_torques _ _ _). cbn in *.
  rewrite X. apply oo_ojbar.
Qed.
Lemma oo_ofric ab J tau eps st c : ca_oa (fst (ops_friction solve pinv ab J tau eps st c)) = ca_oa c.
Proof. cbn. apply oo_ojbar. Qed.
Lemma oo_oid ab J ddx N fe e o c c' x : ops_inverse_dynamics solve pinv ab J ddx N fe e o c = Ok (c', x) -> ca_oa c' = ca_oa c.
Proof.
  unfold ops_inverse_dynamics. cbn zeta.
  set (Jx := match N with Some (_ :: _ as M) => _ | _ => J end). clearbody Jx.
  set (c1 := ops_inertia solve pinv ab Jx (p_svd o) c). assert (E1 : ca_oa c1 = ca_oa c) by apply oo_oin.
  set (F := clip_force _ _). clearbody F.
  assert (X2 : exists c2 F2, (if e then (c1, F) else let '(c, x) := ops_external solve pinv ab Jx fe (p_svd o) c1 in (c, vadd F x)) = (c2, F2) /\ ca_oa c2 = ca_oa c).
  { destruct e; [eauto|]. pose proof (oo_oext ab Jx fe (p_svd o) c1) as X. destruct (ops_external _ _ _ _ _ _ _). do 2 eexists. split; [reflexivity|]. cbn in X. congruence. }
  destruct X2 as (c2 & F2 & -> & E2).
  assert (X3 : exists c3 F3, (if p_grav o then let '(c, x) := ops_gravity solve pinv ab Jx (p_svd o) c2 in (c, vadd F2 x) else (c2, F2)) = (c3, F3) /\ ca_oa c3 = ca_oa c).
  { destruct (p_grav o); [|eauto]. pose proof (oo_ograv ab Jx (p_svd o) c2) as X. destruct (ops_gravity _ _ _ _ _ _). do 2 eexists. split; [reflexivity|]. cbn in X. congruence. }
  destruct X3 as (c3 & F3 & -> & E3).
  assert (X4 : forall c4 F4, (if p_cc o then bind (ops_cc solve pinv ab Jx (ktrunc (p_svd o)) k0 c3) (fun '(c, x) => Ok (c, vadd F3 x)) else Ok (c3, F3)) = Ok (c4, F4) -> ca_oa c4 = ca_oa c).
  { intros c4 F4. destruct (p_cc o); [|intros H; inversion H; subst; auto].
    destruct (ops_cc _ _ _ _ _ _ _) as [[c5 y]| |] eqn:Q; cbn; try discriminate. intros H; inversion H; subst.
    apply oo_occ in Q. congruence. }
  destruct (if p_cc o then _ else _) as [[c4 F4]| |]; cbn; try discriminate. specialize (X4 _ _ eq_refl).
  match goal with |- context [if p_fric o then ?x else ?y] => assert (X5 : exists c5 F5, (if p_fric o then x else y) = (c5, F5) /\ ca_oa c5 = ca_oa c) end.
  { destruct (p_fric o); [|eauto]. do 2 eexists. split; [reflexivity|]. rewrite oo_ojbar. exact X4. }
  destruct X5 as (c5 & F5 & -> & E5). destruct N as [M|]; intros H; inversion H; subst; rewrite ?oo_ojbar; auto.
Qed.

Lemma oo_Ainv ab c : ca_oa (ensure_Ainv ab c) = ca_oa c.
Proof.
  unfold ensure_Ainv. destruct (is_Ainv _); [reflexivity|]. destruct (for_down _ _ _) as [[[Ia h] d] [X P]].
  match goal with |- context [for_up ?n ?f (X, ?z)] => destruct (for_up n f (X, z)) as [X' A'] end. cbn. apply oo_if, oo_Tp.
Qed.
Lemma oo_fda ab tau fe o c : ca_oa (fst (forward_dynamics_aba ab tau fe o c)) = ca_oa c.
Proof.
  unfold forward_dynamics_aba. set (c1 := if has_ext ab fe then ensure_Tw ab c else c).
  set (c2 := if has_child ab || _ then ensure_Tp ab c1 else c1).
  assert (E2 : ca_oa c2 = ca_oa c) by (unfold c2, c1; destruct (_ || _); rewrite ?oo_Tp; apply oo_if, oo_Tw). clearbody c2.
  destruct (for_up _ _ _) as [[[v a] Ia] f]. destruct (for_down _ _ _) as [[[[Ia' h] d] f'] x']. destruct (for_up _ _ _) as [a'' x'']. exact E2.
Qed.

(** ** Coherence *)
Definition same_place (a b : body) : Prop :=
  ab_dof a = ab_dof b /\ ab_rbs a = ab_rbs b /\ ab_q a = ab_q b /\ ab_loads a = ab_loads b /\ ab_anc a = ab_anc b /\ ab_Tbase a = ab_Tbase b.
Lemma oai_place a b d : same_place a b -> oai pinv a d -> oai pinv b d.
Proof. destruct a, b. unfold same_place. cbn. intros (-> & -> & -> & -> & -> & ->) H. exact H. Qed.
Lemma same_place_cache ab x : same_place ab (set_cache ab x). Proof. repeat split. Qed.
Lemma oai_off ab d : is_oa_linv d = false -> is_oa_lambda d = false -> oai pinv ab d.
Proof. intros A B. split; congruence. Qed.
(** [asked = false]: nothing has been stored yet. *)
Definition woa (asked : bool) (ab : body) : Prop := exists c, ab_cache ab = Some c /\
  if asked then oai pinv ab (ca_oa c) else is_oa_linv (ca_oa c) = false /\ is_oa_lambda (ca_oa c) = false.
Lemma woa_true b ab : woa b ab -> woa true ab.
Proof. intros (c & E & H). exists c. split; auto. destruct b; auto. destruct H. apply oai_off; auto. Qed.

(** ** Calls *)
Lemma on_cache_oa {X} ab (f : cache -> res (cache * X)) ab' x :
  (forall c c' y, inv ab c -> aba_ok ab c -> oai pinv ab (ca_oa c) -> f c = Ok (c', y) -> oai pinv ab (ca_oa c')) -> wfa ab -> woa true ab ->
  on_cache ab f = Ok (ab', x) -> woa true ab'.
Proof.
  intros H (c1 & E1 & V1 & A1) (c & E & O). assert (c1 = c) by congruence. subst c1. unfold on_cache. rewrite E. destruct (f c) as [[c' y]| |] eqn:F; cbn; try discriminate.
  intros X0; inversion X0; subst. exists c'. split; auto.
  eapply oai_place; [apply same_place_cache|]. eauto.
Qed.
Ltac okinv := let H := fresh in intros H; inversion H; subst; clear H.
Lemma oai_eq ab d d' : d' = d -> oai pinv ab d -> oai pinv ab d'. Proof. intros ->. auto. Qed.
Ltac same := eapply oai_eq; [|eassumption];
  rewrite ?oo_Tp, ?oo_Tw, ?oo_jac, ?oo_cc, ?oo_grav, ?oo_crba, ?oo_crba_inv, ?oo_oinv, ?oo_oin, ?oo_ojbar; try reflexivity; auto.
Lemma idx_lt n l m : idx n l = Some m -> m < n.
Proof. intros H. apply idx_spec in H. tauto. Qed.

Lemma ask_oa q ab ab' x : tree_ok ab -> wfa ab -> woa true ab -> (opspace_aba (OAsk q) = true -> noload ab) ->
  ask solve pinv q ab = Ok (ab', x) -> woa true ab'.
Proof.
  intros T W O0 NL E.
  assert (OT : forall l a1 t, q_T_to_world l ab = Ok (a1, t) -> woa true a1).
  { intros l a1 t Q. revert Q. apply on_cache_oa; auto. intros c c' z V A O. destruct (idx _ _); [|discriminate]. okinv. same. }
  assert (OJ : forall l off a1 t, q_Jacobian l off ab = Ok (a1, t) -> woa true a1).
  { intros l off a1 t Q. revert Q. apply on_cache_oa; auto. intros c c' z V A O. destruct (idx _ _); [|discriminate]. okinv. same. }
  destruct q; cbn in E; apply wrap_inv in E; destruct E as (y & E & _).
  - revert E. apply on_cache_oa; auto. intros c c' z V A O. destruct (idx _ _); [|discriminate]. okinv. same.
  - eapply OT; eauto.
  - unfold q_Position, bind in E. destruct (q_T_to_world l ab) as [[a1 t]| |] eqn:Q; try discriminate. inversion E; subst. eapply OT; eauto.
  - unfold q_Orientation, bind in E. destruct (q_T_to_world l ab) as [[a1 t]| |] eqn:Q; try discriminate. inversion E; subst. eapply OT; eauto.
  - unfold q_CartesianPose, bind in E. destruct (q_T_to_world l ab) as [[a1 t]| |] eqn:Q; try discriminate. inversion E; subst. eapply OT; eauto.
  - eapply OJ; eauto.
  - unfold q_LinearJacobian, bind in E. destruct (q_Jacobian l off ab) as [[a1 t]| |] eqn:Q; try discriminate. inversion E; subst. eapply OJ; eauto.
  - unfold q_AngularJacobian, bind in E. destruct (ab_cache ab) as [c0|]; [|discriminate].
    destruct (q_Jacobian l _ ab) as [[a1 t]| |] eqn:Q; try discriminate. inversion E; subst. eapply OJ; eauto.
  - revert E. apply on_cache_oa; auto. intros c c' z V A O. destruct (idx _ _) eqn:Q; [|discriminate]. okinv. same.
  - revert E. apply on_cache_oa; auto. intros c c' z V A O. okinv. same.
  - revert E. apply on_cache_oa; auto. intros c c' z V A O. okinv. same.
  - revert E. apply on_cache_oa; auto. intros c c' z V A O. pose proof (oo_ext ab fe c) as X.
    destruct (ext_torques ab fe c). okinv. cbn in X. same.
  - revert E. apply on_cache_oa; auto. intros c c' z V A O. okinv. same.
  - revert E. apply on_cache_oa; auto. intros c c' z V A O. destruct (idx _ _); [|discriminate]. okinv. same.
  - unfold q_InertiaInverse_solve in E. destruct (Nat.eqb _ _); [|discriminate].
    revert E. apply on_cache_oa; auto. intros c c' z V A O. okinv. same.
  - unfold q_InverseDynamics in E. destruct (Nat.eqb _ _); [|discriminate].
    revert E. apply on_cache_oa; auto. intros c c' z V A O. pose proof (oo_id ab ddq fe o c) as X.
    destruct (inverse_dynamics ab ddq fe o c). okinv. same.
  - unfold q_ForwardDynamics in E. destruct (Nat.eqb _ _); [|discriminate].
    revert E. apply on_cache_oa; auto. intros c c' z V A O. pose proof (oo_fd ab tau fe o c) as X.
    destruct (forward_dynamics _ ab tau fe o c). okinv. same.
  - unfold q_ForwardDynamicsAba in E. destruct (Nat.eqb _ _); [|discriminate].
    revert E. apply on_cache_oa; auto. intros c c' z V A O. pose proof (oo_fda ab tau fe o c) as X.
    destruct (forward_dynamics_aba ab tau fe o c). okinv. same.
  - revert E. apply on_cache_oa; auto. intros c c' z V A O. okinv. same. apply oo_Ainv.
  - unfold q_VelocityDerivative in E.
    assert (X : forall c c' z, inv ab c -> aba_ok ab c -> oai pinv ab (ca_oa c) -> (let '(c, t) := velocity_derivative ab ddq fe o c in Ok (c, mat (ab_dof ab) (ab_dof ab) t)) = Ok (c', z) -> oai pinv ab (ca_oa c')).
    { intros c c' z V A O. pose proof (oo_vd ab ddq fe o c) as X. destruct (velocity_derivative ab ddq fe o c). okinv. same. }
    destruct (o_cc o); [destruct (Nat.eqb _ _); [|discriminate]|]; revert E; apply on_cache_oa; auto.
  - unfold q_PositionDerivative in E. destruct (Nat.eqb _ _); [|discriminate].
    revert E. apply on_cache_oa; auto. intros c c' z V A O. destruct (_ && _); [discriminate|]. okinv.
    same. cbn. destruct (_ || _); rewrite ?oo_Tw; apply oo_rnea.
  - unfold q_ops_InertiaInverse, with_J in E. destruct (shape _ _ _); [|discriminate].
    revert E. apply on_cache_oa; auto. intros c c' z V A O. okinv. same.
  - unfold q_ops_Inertia, with_J in E. destruct (shape _ _ _); [|discriminate].
    revert E. apply on_cache_oa; auto. intros c c' z V A O. okinv. same.
  - unfold q_ops_JacobianDynamicInverse, with_J in E. destruct (shape _ _ _); [|discriminate].
    revert E. apply on_cache_oa; auto. intros c c' z V A O. okinv. same.
  - unfold q_ops_IsSingular, with_J in E. destruct (shape _ _ _); [|discriminate].
    revert E. apply on_cache_oa; auto. intros c c' z V A O. okinv. same.
  - unfold q_ops_CentrifugalCoriolis, with_J in E. destruct (shape _ _ _); [|discriminate].
    revert E. apply on_cache_oa; auto. intros c c' z V A O H. apply oo_occ in H. same.
  - unfold q_ops_Gravity, with_J in E. destruct (shape _ _ _); [|discriminate].
    revert E. apply on_cache_oa; auto. intros c c' z V A O H. inversion H. same.
  - unfold q_ops_ExternalForces, with_J in E. destruct (shape _ _ _); [|discriminate].
    revert E. apply on_cache_oa; auto. intros c c' z V A O H. pose proof (oo_oext ab J fe eps c) as X.
    destruct (ops_external _ _ _ _ _ _ _). inversion H; subst. same.
  - unfold q_ops_Friction, with_J in E. destruct (Nat.ltb _ _); [discriminate|]. destruct (shape _ _ _); [|discriminate].
    revert E. apply on_cache_oa; auto. intros c c' z V A O H. inversion H. same.
  - assert (X : forall c c' z, inv ab c -> aba_ok ab c -> oai pinv ab (ca_oa c) -> ops_inverse_dynamics solve pinv ab J ddx N fe fe_empty o c = Ok (c', z) -> oai pinv ab (ca_oa c'))
      by (intros c c' z V A O H; apply oo_oid in H; same).
    unfold q_ops_InverseDynamics, with_J in E. destruct (negb _); [discriminate|].
    destruct N as [[|]|]; [|destruct (shape (ab_dof ab) _ _); [|discriminate]|];
      (destruct (shape _ _ J); [|discriminate]); revert E; apply on_cache_oa; auto.
  - revert E. apply on_cache_oa; auto. intros c c' z V A O. destruct (idx _ _) as [m|] eqn:Q; [|discriminate]. okinv. apply oa_linv_val; eauto using idx_lt.
  - revert E. apply on_cache_oa; auto. intros c c' z V A O. destruct (idx _ _) as [m|] eqn:Q; [|discriminate]. okinv. apply oa_lam_val; eauto using idx_lt.
  - revert E. apply on_cache_oa; auto. intros c c' z V A O. destruct (idx _ _) as [m|] eqn:Q; [|discriminate]. intros H.
    pose proof (oa_cc_val pinv ab T (NL eq_refl) m off eps c (idx_lt _ _ _ Q) V A O) as [X _]. destruct (oa_cc _ _ _ _ _ _). inversion H; subst. exact X.
  - revert E. apply on_cache_oa; auto. intros c c' z V A O. destruct (idx _ _) as [m|] eqn:Q; [|discriminate]. intros H.
    pose proof (oa_gravity_val pinv ab T (NL eq_refl) m off fe eps c (idx_lt _ _ _ Q) V A O) as [X _]. destruct (oa_gravity _ _ _ _ _ _ _). inversion H; subst. exact X.
Qed.

(** ** Histories *)
Lemma woa_set_q b q ab ab' : woa b ab -> set_q q ab = Ret ab' tt -> woa b ab'.
Proof.
  intros (c & E & A). unfold set_q. destruct (negb _); [discriminate|]. destruct (negb _); [discriminate|].
  destruct (veqb _ _); intros H; inversion H; subst; [exists c; auto|]. unfold woa. cbn. rewrite E. eexists. split; [reflexivity|].
  destruct b; [apply oai_off; reflexivity|split; reflexivity].
Qed.
Lemma woa_set_dq b q ab ab' : woa b ab -> set_dq q ab = Ret ab' tt -> woa b ab'.
Proof.
  intros (c & E & A). unfold set_dq. destruct (negb _); [discriminate|]. destruct (negb _); [discriminate|].
  destruct (veqb _ _); intros H; inversion H; subst; [exists c; auto|]. unfold woa. cbn. rewrite E. eexists. split; [reflexivity|].
  destruct b; [|exact A]. eapply oai_place; [|exact A]. repeat split.
Qed.
Lemma woa_put io q dq ab ab' : woa true ab -> put io q dq ab = Ok ab' -> woa true ab'.
Proof.
  intros W E. apply put_inv in E. destruct E as (q' & ab1 & dq' & E1 & E2).
  eapply woa_set_dq; [|exact E2]. eapply woa_set_q; eauto.
Qed.
Lemma woa_sim_fd aba tau fe o ab ab' x : tree_ok ab -> wfa ab -> woa true ab -> sim_fd solve aba tau fe o ab = Ok (ab', x) -> woa true ab'.
Proof.
  intros T W O. unfold sim_fd. destruct aba; intros E.
  - eapply (ask_oa (QAba tau fe o) ab ab' (AVec x)); auto; [discriminate|]. cbn. rewrite E. reflexivity.
  - eapply (ask_oa (QFD tau fe o) ab ab' (AVec x)); auto; [discriminate|]. cbn. rewrite E. reflexivity.
Qed.
Lemma woa_step b o ab ab' : tree_ok ab -> wfa ab -> woa b ab -> (opspace_aba o = true -> noload ab) -> negb (b && moves_base o) = true ->
  step solve pinv o ab = Some ab' -> woa (b || asks o) ab'.
Proof.
  intros T W O NL Hb E. pose proof O as (c & Ec & A). assert (AC : AddComm S) by apply laws_comm.
  destruct o; cbn [step asks moves_base] in *; rewrite ?orb_false_r, ?orb_true_r, ?andb_true_r in *.
  - destruct (add_rigid_body rb p ab) as [a1 id|a1|] eqn:Q; cbn in E; inversion E; subst; [|apply add_exn in Q; subst; auto].
    unfold add_rigid_body in Q. destruct (_ || _)%Z; [discriminate|]. inversion Q; subst; clear Q.
    unfold woa. cbn. rewrite Ec. eexists. split; [reflexivity|]. destruct b; [apply oai_off; reflexivity|split; reflexivity].
  - destruct (set_q q ab) as [a1 []|a1|] eqn:Q; cbn in E; inversion E; subst; [|apply set_q_exn in Q; subst; auto].
    eapply woa_set_q; eauto.
  - destruct (set_dq dq ab) as [a1 []|a1|] eqn:Q; cbn in E; inversion E; subst; [|apply set_dq_exn in Q; subst; auto].
    eapply woa_set_dq; eauto.
  - cbn in E. inversion E; subst; clear E. unfold woa. cbn. rewrite Ec. eexists. split; [reflexivity|].
    destruct b; [|exact A]. eapply oai_place; [|exact A]. repeat split.
  - unfold add_load, set_loads in E. rewrite Ec in E. cbn in E; inversion E; subst; clear E. eexists. split; [reflexivity|]. destruct b; [apply oai_off; reflexivity|split; reflexivity].
  - unfold replace_load, set_loads in E. rewrite Ec in E. cbn in E; inversion E; subst; clear E. eexists. split; [reflexivity|]. destruct b; [apply oai_off; reflexivity|split; reflexivity].
  - unfold clear_load, set_loads in E. rewrite Ec in E. cbn in E; inversion E; subst; clear E. eexists. split; [reflexivity|]. destruct b; [apply oai_off; reflexivity|split; reflexivity].
  - cbn in E. inversion E; subst; clear E. destruct b; [discriminate|]. exists c. split; [exact Ec|]. exact A.
  - destruct (set_inertia_base I ab) as [a1 []|a1|] eqn:Q; cbn in E; inversion E; subst; [|apply set_inertia_base_exn in Q; subst; auto].
    unfold set_inertia_base in Q. destruct (klt _ _); [discriminate|]. inversion Q; subst; clear Q.
    exists c. split; [auto|]. destruct b; [|exact A]. eapply oai_place; [|exact A]. repeat split.
  - unfold body_copy in E. rewrite Ec in E. inversion E; subst; clear E.
    exists c. split; [auto|]. destruct b; [|exact A]. eapply oai_place; [|exact A]. repeat split.
  - destruct (integrate _ _ _ _) as [a1| |] eqn:Q; inversion E; subst; clear E.
    assert (X : tree_ok ab' /\ wfa ab' /\ woa true ab').
    { eapply (integrate_ind (fun a => tree_ok a /\ wfa a /\ woa true a)); [| |split; [exact T|split; [exact W|eapply woa_true; exact O]]|exact Q].
      - intros a a' x (Ta & Wa & Oa) F. split; [|split; [eapply sim_fd_aba; eauto|eapply woa_sim_fd; eauto]].
        apply (sim_fd_frame solve pinv) in F. destruct F as [c' ->]. apply tree_set_cache; auto.
      - intros a a' x y (Ta & Wa & Oa) F. split; [eapply tree_put; eauto|]. split; [|eapply woa_put; eauto].
        apply wfa_split in Wa. destruct Wa as [Wc Wa]. apply wfa_split. split; [eapply inv_put; eauto|eapply waba_put; eauto]. }
    apply X.
  - destruct (ask solve pinv q ab) as [[a1 x]| |] eqn:Q; inversion E; subst; clear E.
    + eapply ask_oa; [exact T|exact W|eapply woa_true; exact O|exact NL|exact Q].
    + destruct q; try (inversion H0; subst; eapply woa_true; exact O).
      destruct (q_ops_InverseDynamics _ _ _ _ _ _ _ _ _) as [[a1 y]| |] eqn:Q2; inversion H0; subst; clear H0.
      eapply (ask_oa (QoID _ ddx None fe fe_empty _) ab ab'); [exact T|exact W|eapply woa_true; exact O|discriminate|]. cbn. rewrite Q2. cbn. reflexivity.
Qed.
Lemma oa_run (mode : bool) h : forall b ab ab', tree_ok ab -> P b ab -> waba ab -> woa b ab -> (mode = false -> noload ab) ->
  forallb (fun o => negb (if mode then opspace_aba o else load_op o)) h = true -> base_fixed b h = true ->
  run solve pinv h ab = Some ab' -> woa true ab'.
Proof.
  assert (AC : AddComm S) by apply laws_comm.
  induction h as [|o h IH]; cbn; intros b ab ab' T H W O NL M Hb E.
  - inversion E; subst. eapply woa_true; eauto.
  - destruct (step solve pinv o ab) as [a1|] eqn:Q; [|discriminate].
    assert (X : negb (b && moves_base o) = true /\ base_fixed (b || asks o) h = true).
    { destruct o; cbn in *; rewrite ?andb_false_r, ?orb_false_r, ?orb_true_r in *; auto.
      apply andb_true_iff in Hb. destruct Hb. destruct b; auto; discriminate. }
    destruct X as [X1 X2]. apply andb_true_iff in M. destruct M as [M1 M2]. apply negb_true_iff in M1.
    assert (WF : wfa ab) by (apply wfa_split; split; auto; eapply P_wfc; eauto).
    assert (N1 : opspace_aba o = true -> noload ab) by (intros O1; destruct mode; [congruence|auto]).
    eapply (IH _ a1); [eapply tree_step; eauto|eapply P_step; eauto| | | |exact M2|exact X2|exact E].
    + eapply waba_step; eauto.
    + eapply woa_step; eauto.
    + intros ->. eapply noload_step; eauto.
Qed.
Lemma reached_woa h ab : reached solve pinv h ab -> base_fixed false h = true -> unmixed h = true -> woa true ab.
Proof.
  intros (name & mem & R) Hb U. apply orb_true_iff in U.
  assert (X : exists mode : bool, forallb (fun o => negb (if mode then opspace_aba o else load_op o)) h = true)
    by (destruct U; [exists true|exists false]; auto). destruct X as [mode X].
  eapply (oa_run mode); [apply (tree_new name mem)| | | | |exact X|exact Hb|exact R].
  - exists (all_clear mem). split; [reflexivity|]. intros. apply inv_all_clear.
  - exists (all_clear mem). split; [reflexivity|]. apply aba_ok_off; reflexivity.
  - exists (all_clear mem). split; [reflexivity|]. split; reflexivity.
  - intros _ k. reflexivity.
Qed.
Lemma cold_woa ab mem : woa true (cold ab mem).
Proof. eexists. split; [reflexivity|]. apply oai_off; reflexivity. Qed.

(** ** Answers *)
Section Answers.
Variable ab : body.
Hypothesis T : tree_ok ab.
Hypothesis W : wfa ab.
Hypothesis O : woa true ab.
Hypothesis NL : noload ab.
Variable l : Z.
Variable m : nat.
Hypothesis M : idx (ab_dof ab) l = Some m.
Lemma out_aLinv off : outcome (ask solve pinv (QaLinv l off) ab) = Ok (AMat (linv_aba ab m)).
Proof.
  destruct W as (c & E & V & A). destruct O as (c' & E' & Oc). assert (c' = c) by congruence. subst c'.
  cbn [ask]. rewrite outcome_wrap. unfold q_ops_InertiaInverseAba. rewrite outcome_on_cache, E, M. cbn [bind].
  destruct (oa_linv_val pinv ab T NL m off c (idx_lt _ _ _ M) V A Oc) as (_ & _ & _ & ->). reflexivity.
Qed.
Lemma out_aLam off eps : outcome (ask solve pinv (QaLambda l off eps) ab) = Ok (AMat (fst (pinv (linv_aba ab m) eps))).
Proof.
  destruct W as (c & E & V & A). destruct O as (c' & E' & Oc). assert (c' = c) by congruence. subst c'.
  cbn [ask]. rewrite outcome_wrap. unfold q_ops_InertiaAba. rewrite outcome_on_cache, E, M. cbn [bind].
  destruct (oa_lam_val pinv ab T NL m off eps c (idx_lt _ _ _ M) V A Oc) as (_ & ->). reflexivity.
Qed.
Lemma out_aCC off eps : outcome (ask solve pinv (QaCC l off eps) ab) = Ok (AVec (lmulv 6 6 (fst (pinv (linv_aba ab m) eps)) (map kopp (m6 (cc_acc ab m))))).
Proof.
  destruct W as (c & E & V & A). destruct O as (c' & E' & Oc). assert (c' = c) by congruence. subst c'.
  cbn [ask]. rewrite outcome_wrap. unfold q_ops_CentrifugalCoriolisAba. rewrite outcome_on_cache, E, M.
  destruct (oa_cc_val pinv ab T NL m off eps c (idx_lt _ _ _ M) V A Oc) as (_ & X). destruct (oa_cc _ _ _ _ _ _). cbn in *. rewrite X. reflexivity.
Qed.
Lemma out_aGrav off fe eps : (forall c, ab_cache ab = Some c -> is_aba (ca_aba c) = false) ->
  outcome (ask solve pinv (QaGrav l off fe eps) ab) = Ok (AVec (lmulv 6 6 (fst (pinv (linv_aba ab m) eps)) (m6 (grav_acc ab fe m)))).
Proof.
  intros F. destruct W as (c & E & V & A). destruct O as (c' & E' & Oc). assert (c' = c) by congruence. subst c'.
  cbn [ask]. rewrite outcome_wrap. unfold q_ops_GravityAba. rewrite outcome_on_cache, E, M.
  destruct (oa_gravity_val pinv ab T NL m off fe eps c (idx_lt _ _ _ M) V A Oc) as (_ & X). specialize (X (F _ E)). destruct (oa_gravity _ _ _ _ _ _ _). cbn in *. rewrite X. reflexivity.
Qed.
End Answers.
End OaCache.
