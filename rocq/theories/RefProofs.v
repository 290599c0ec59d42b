(** What queries leave alone in the cache (C55, C57). *)
From Coq Require Import List Arith ZArith Bool Lia.
From Verif Require Import Scalar Base Spatial Joint Body Kin InvDyn FwdDyn Opspace OpspaceAba Deriv Sim Ops SpecCache
  TreeProofs CacheProofs CacheOps Refs SpecRefs.
Import ListNotations.

Section RefProofs.
Context {S : Scal}.
Local Open Scope k_scope.
Variable solve : list (list K) -> list K -> list K.
Variable pinv : list (list K) -> K -> list (list K) * bool.

Section Closed.
Variable ab : body.
Variable R : cache -> cache -> Prop.
Variables jq opq oaq : Prop.
Hypothesis Rrefl : forall c, R c c.
Hypothesis Rtrans : forall a b c, R a b -> R b c -> R a c.
Hypothesis HTp : forall c a, is_Tp (ca_T c) = false -> R c (with_T c (TD true a (is_Tw (ca_T c)) (c_Tw (ca_T c)))).
Hypothesis HTw : forall c a, is_Tw (ca_T c) = false -> R c (with_T c (TD (is_Tp (ca_T c)) (c_Tp (ca_T c)) true a)).
Hypothesis Hvel : forall c x, R c (with_vel c x).
Hypothesis Hrnea : forall c x, R c (with_rnea c x).
Hypothesis Haba : forall c Ia h d, R c (with_aba c (AD true Ia h d (is_Ainv (ca_aba c)) (c_Ainv (ca_aba c)) (c_P (ca_aba c)) (c_AA (ca_aba c)))).
Hypothesis HAinv : forall c x, is_Ainv (ca_aba c) = false -> R c (with_aba c x).
Hypothesis Hfg : forall c f, R c (with_grav c (GD (is_grav (ca_grav c)) f (c_G (ca_grav c)))).
Hypothesis Hgrav : forall c x, is_grav (ca_grav c) = false -> R c (with_grav c x).
Hypothesis Hcc : forall c x, is_cc (ca_cc c) = false -> R c (with_cc c x).
Hypothesis Hcrba : forall c I A, is_crba (ca_crba c) = false ->
  R c (with_crba c (BD true I A (is_crba_inv (ca_crba c)) (c_Afact (ca_crba c)))).
Hypothesis Hcrbai : forall c A, is_crba_inv (ca_crba c) = false ->
  R c (with_crba c (BD (is_crba (ca_crba c)) (c_Ic (ca_crba c)) (c_A (ca_crba c)) true A)).
Hypothesis Hjac : jq -> forall c x, R c (with_jac c x).
Hypothesis Hop : opq -> forall c x, R c (with_op c x).
Hypothesis Hoa : oaq -> forall c x, R c (with_oa c x).

Lemma R_Tp c : R c (ensure_Tp ab c).
Proof. unfold ensure_Tp. destruct (is_Tp _) eqn:E; auto. Qed.
Lemma R_Tw c : R c (ensure_Tw ab c).
Proof.
  unfold ensure_Tw. destruct (is_Tw _) eqn:E; auto. eapply Rtrans; [apply R_Tp|]. apply HTw.
  unfold ensure_Tp. destruct (is_Tp _); auto.
Qed.
Lemma R_ifTp (b : bool) c : R c (if b then ensure_Tp ab c else c).
Proof. destruct b; auto using R_Tp. Qed.
Lemma R_ifTw (b : bool) c : R c (if b then ensure_Tw ab c else c).
Proof. destruct b; auto using R_Tw. Qed.
Lemma ifTp_rest (b : bool) c : same_rest c (if b then ensure_Tp ab c else c).
Proof. destruct b; [apply sr_Tp|apply sr_refl]. Qed.

Lemma R_cc c : R c (ensure_cc ab c).
Proof.
  unfold ensure_cc. destruct (is_cc _) eqn:E; auto.
  pose proof (R_ifTp (has_child ab) c) as X. destruct (ifTp_rest (has_child ab) c) as [t Et].
  set (c1 := if has_child ab then _ else _) in *. assert (E1 : is_cc (ca_cc c1) = false) by (rewrite Et; exact E). clearbody c1.
  destruct (for_up _ _ _) as [[v cc] f]. destruct (for_down _ _ _) as [C f'].
  eapply Rtrans; [exact X|]. eapply Rtrans; [apply (Hvel c1 (VD true v))|]. apply Hcc. exact E1.
Qed.
Lemma R_grav c : R c (ensure_grav ab c).
Proof.
  unfold ensure_grav. destruct (is_grav _) eqn:E; auto.
  pose proof (R_ifTw (Nat.ltb 0 (ab_dof ab)) c) as X.
  assert (E0 : is_grav (ca_grav (if Nat.ltb 0 (ab_dof ab) then ensure_Tw ab c else c)) = false).
  { destruct (Nat.ltb _ _); auto. destruct (sr_Tw ab c) as [t ->]. exact E. }
  set (c0 := if Nat.ltb _ _ then _ else _) in *. clearbody c0.
  pose proof (R_ifTp (has_child ab) c0) as Y. destruct (ifTp_rest (has_child ab) c0) as [t Et].
  set (c1 := if has_child ab then _ else _) in *. assert (E1 : is_grav (ca_grav c1) = false) by (rewrite Et; exact E0). clearbody c1.
  destruct (for_down _ _ _) as [G f].
  eapply Rtrans; [exact X|]. eapply Rtrans; [exact Y|]. apply Hgrav. exact E1.
Qed.
Lemma R_ext fe c : R c (fst (ext_torques ab fe c)).
Proof.
  unfold ext_torques. pose proof (R_ifTp (has_child ab) c) as X. set (c1 := if has_child ab then _ else _) in *. clearbody c1.
  pose proof (R_ifTw (has_ext ab fe) c1) as Y. set (c2 := if has_ext ab fe then _ else _) in *. clearbody c2.
  destruct (for_down _ _ _) as [tau f]. cbn. eapply Rtrans; [exact X|]. eapply Rtrans; [exact Y|]. apply Hfg.
Qed.
Lemma R_crba c : R c (ensure_crba ab c).
Proof.
  unfold ensure_crba. destruct (is_crba _) eqn:E; auto.
  pose proof (R_ifTp (has_child ab) c) as X. destruct (ifTp_rest (has_child ab) c) as [t Et].
  set (c1 := if has_child ab then _ else _) in *. assert (E1 : is_crba (ca_crba c1) = false) by (rewrite Et; exact E). clearbody c1.
  destruct (for_down _ _ _) as [I A]. eapply Rtrans; [exact X|]. apply Hcrba. exact E1.
Qed.
Lemma crba_keeps_inv c : is_crba_inv (ca_crba (ensure_crba ab c)) = is_crba_inv (ca_crba c).
Proof.
  unfold ensure_crba. destruct (is_crba _) eqn:E; auto. destruct (ifTp_rest (has_child ab) c) as [t Et].
  set (c1 := if has_child ab then _ else _) in *. destruct (for_down _ _ _) as [I A]. cbn. rewrite Et. reflexivity.
Qed.
Lemma R_crbai c : R c (ensure_crba_inv ab c).
Proof.
  unfold ensure_crba_inv. destruct (is_crba_inv _) eqn:E; auto. eapply Rtrans; [apply R_crba|]. apply Hcrbai.
  rewrite crba_keeps_inv. exact E.
Qed.
Lemma R_jac l off c : jq -> R c (ensure_jac ab l off c).
Proof. intros J. unfold ensure_jac. destruct (_ && _); auto. eapply Rtrans; [apply R_Tw|]. apply Hjac; auto. Qed.

(** The recursive branch of InverseDynamics. *)
Definition slow ddq fe o c : cache :=
  let c := if (o_grav o && has_root ab) || has_ext ab fe then ensure_Tw ab c else c in
  let c := if has_child ab then ensure_Tp ab c else c in
  let '(v, a, f) := for_up (ab_dof ab) (id_fwd_step ab (c_Tp (ca_T c)) (c_Tw (ca_T c)) (is_vel (ca_vel c)) o ddq fe)
                             (c_v (ca_vel c), c_a (ca_rnea c), c_f (ca_rnea c)) in
  let '(tau, f) := for_down (ab_dof ab) (back_step ab (c_Tp (ca_T c))) (fun _ => 0, f) in
  with_rnea (with_vel c (VD (o_cc o) v)) (RD a f).
Lemma R_slow ddq fe o c : R c (slow ddq fe o c).
Proof.
  unfold slow. pose proof (R_ifTw ((o_grav o && has_root ab) || has_ext ab fe) c) as X.
  set (c1 := if _ || _ then _ else _) in *. clearbody c1.
  pose proof (R_ifTp (has_child ab) c1) as Y. set (c2 := if has_child ab then _ else _) in *. clearbody c2.
  destruct (for_up _ _ _) as [[v a] f]. destruct (for_down _ _ _) as [tau f'].
  eapply Rtrans; [exact X|]. eapply Rtrans; [exact Y|]. eapply Rtrans; [apply (Hvel c2 (VD (o_cc o) v))|]. apply Hrnea.
Qed.
Lemma R_id ddq fe o c : R c (fst (inverse_dynamics ab ddq fe o c)).
Proof.
  unfold inverse_dynamics. destruct (_ && _).
  - pose proof (R_ext fe c) as X. destruct (ext_torques ab fe c) as [c1 x]. exact X.
  - pose proof (R_slow ddq fe o c) as X. unfold slow in X.
    set (c1 := if _ || _ then _ else _) in *. set (c2 := if has_child ab then _ else _) in *.
    destruct (for_up _ _ _) as [[v a] f]. destruct (for_down _ _ _) as [tau f']. exact X.
Qed.
Lemma id_rnea_slow ddq fe o c : id_rnea ab ddq fe o c = slow ddq fe o c.
Proof.
  unfold id_rnea, inverse_dynamics, slow. cbn [is_crba ca_crba clear_crba with_crba andb].
  assert (X : forall (b : bool) c, (if b then ensure_Tw ab (clear_crba c) else clear_crba c) = clear_crba (if b then ensure_Tw ab c else c)).
  { intros [] c0; auto. destruct c0 as [[] ? ? ? ? ? ? ? ? ? ?]. unfold ensure_Tw, ensure_Tp, clear_crba. cbn. destruct is_Tw, is_Tp; reflexivity. }
  assert (Y : forall (b : bool) c, (if b then ensure_Tp ab (clear_crba c) else clear_crba c) = clear_crba (if b then ensure_Tp ab c else c)).
  { intros [] c0; auto. destruct c0 as [[] ? ? ? ? ? ? ? ? ? ?]. unfold ensure_Tw, ensure_Tp, clear_crba. cbn. destruct is_Tp; reflexivity. }
  assert (E : ca_crba (if has_child ab then ensure_Tp ab (if (o_grav o && has_root ab) || has_ext ab fe then ensure_Tw ab c else c)
     else (if (o_grav o && has_root ab) || has_ext ab fe then ensure_Tw ab c else c)) = ca_crba c).
  { destruct (ifTp_rest (has_child ab) (if (o_grav o && has_root ab) || has_ext ab fe then ensure_Tw ab c else c)) as [t ->].
    cbn. destruct (_ || _); auto. destruct (sr_Tw ab c) as [t2 ->]. reflexivity. }
  rewrite X, Y. set (c2 := if has_child ab then _ else _) in *. clearbody c2.
  cbn [ca_T ca_vel ca_rnea clear_crba with_crba].
  destruct (for_up _ _ _) as [[v a] f]. destruct (for_down _ _ _) as [tau f']. rewrite <- E.
  destruct c2 as [? ? ? ? ? ? [] ? ? ? ?]. reflexivity.
Qed.
Lemma R_veld ddq fe o c : R c (fst (velocity_derivative ab ddq fe o c)).
Proof.
  unfold velocity_derivative. destruct (negb _); [apply Rrefl|]. rewrite id_rnea_slow. pose proof (R_slow ddq fe o c) as X.
  set (c1 := slow _ _ _ _) in *. clearbody c1. pose proof (R_ifTp (has_child ab) c1) as Y.
  set (c2 := if has_child ab then _ else _) in *. clearbody c2. destruct (for_up _ _ _) as [[v a] f]. destruct (for_down _ _ _).
  cbn. exact (Rtrans _ _ _ X Y).
Qed.
Lemma R_fd tau fe o c : R c (fst (forward_dynamics solve ab tau fe o c)).
Proof.
  unfold forward_dynamics.
  pose proof (R_id (vec (ab_dof ab) (fun _ => 0)) fe (IdOpts (o_grav o) (o_cc o) false (klit 1 100)) c) as H1.
  destruct (inverse_dynamics ab _ _ _ c) as [c1 b]. cbn in *. eapply Rtrans; [exact H1|]. apply R_crbai.
Qed.
Lemma R_aba tau fe o c : R c (fst (forward_dynamics_aba ab tau fe o c)).
Proof.
  unfold forward_dynamics_aba.
  pose proof (R_ifTw (has_ext ab fe) c) as X. set (c1 := if has_ext ab fe then _ else _) in *. clearbody c1.
  pose proof (R_ifTp (has_child ab || (o_grav o && has_root ab)) c1) as Y. set (c2 := if _ || _ then _ else _) in *. clearbody c2.
  destruct (for_up _ (aba_fwd_step _ _ _ _ _ _ _) _) as [[[v a] Ia] f].
  destruct (for_down _ _ _) as [[[[Ia' h] d] f'] ddq]. destruct (for_up _ _ _) as [a' ddq']. cbn [fst].
  eapply Rtrans; [exact X|]. eapply Rtrans; [exact Y|]. eapply Rtrans; [apply (Hvel c2 (VD (o_cc o) v))|].
  eapply Rtrans; [apply (Hrnea _ (RD a' f'))|]. exact (Haba (with_rnea (with_vel c2 (VD (o_cc o) v)) (RD a' f')) Ia' h d).
Qed.
Lemma R_Ainv c : R c (ensure_Ainv ab c).
Proof.
  unfold ensure_Ainv. destruct (is_Ainv _) eqn:E; auto.
  pose proof (R_ifTp (has_child ab) c) as X. destruct (ifTp_rest (has_child ab) c) as [t Et].
  set (c1 := if has_child ab then _ else _) in *. assert (E1 : is_Ainv (ca_aba c1) = false) by (rewrite Et; exact E). clearbody c1.
  destruct (for_down _ _ _) as [[[Ia h] d] [Y P]]. destruct (for_up _ _ _) as [X' A'].
  eapply Rtrans; [exact X|]. apply HAinv. exact E1.
Qed.

Lemma R_oLinv J c : opq -> R c (ops_inertia_inverse solve ab J c).
Proof. intros O. unfold ops_inertia_inverse. destruct (_ && _); auto. eapply Rtrans; [apply R_crbai|]. apply Hop; auto. Qed.
Lemma R_oLam J eps c : opq -> R c (ops_inertia solve pinv ab J eps c).
Proof.
  intros O. unfold ops_inertia. destruct (_ && _); auto. destruct (pinv _ _). eapply Rtrans; [apply R_oLinv; auto|]. apply Hop; auto.
Qed.
Lemma R_oJb J eps c : opq -> R c (ops_jbar solve pinv ab J eps c).
Proof. intros O. unfold ops_jbar. destruct (_ && _); auto. eapply Rtrans; [apply R_oLam; auto|]. apply Hop; auto. Qed.
Lemma R_oCC J l eps c c' x : opq -> ops_cc solve pinv ab J l eps c = Ok (c', x) -> R c c'.
Proof.
  intros O. unfold ops_cc. destruct (negb _); [discriminate|]. destruct (idx _ _); [|discriminate].
  intros E; inversion E; subst. eapply Rtrans; [apply (R_oJb J eps); auto|]. eapply Rtrans; [apply R_cc|].
  eapply Rtrans; [apply (R_oLam J 0); auto|]. apply R_Tw.
Qed.
Lemma R_oG J eps c : opq -> R c (fst (ops_gravity solve pinv ab J eps c)).
Proof. intros O. cbn. eapply Rtrans; [apply (R_oJb J eps); auto|]. apply R_grav. Qed.
Lemma R_oE J fe eps c : opq -> R c (fst (ops_external solve pinv ab J fe eps c)).
Proof.
  intros O. unfold ops_external. pose proof (R_ext fe (ops_jbar solve pinv ab J eps c)) as X.
  destruct (ext_torques ab fe _). cbn in *. eapply Rtrans; [apply (R_oJb J eps); auto|exact X].
Qed.
Lemma R_oID J ddx N fe e o c c' x : opq ->
  ops_inverse_dynamics solve pinv ab J ddx N fe e o c = Ok (c', x) -> R c c'.
Proof.
  intros O. unfold ops_inverse_dynamics.
  set (Jx := match N with Some (_ :: _ as M) => _ | _ => J end).
  pose proof (R_oLam Jx (p_svd o) c O) as H1. set (c1 := ops_inertia _ _ _ _ _ _) in *.
  set (F1 := clip_force _ _). clearbody c1 F1.
  set (s2 := if e then _ else _).
  assert (H2 : R c1 (fst s2)).
  { unfold s2. destruct e; auto. pose proof (R_oE Jx fe (p_svd o) c1 O). destruct (ops_external _ _ _ _ _ _ _); auto. }
  destruct s2 as [c2 F2]. cbn in H2.
  set (s3 := if p_grav o then _ else _).
  assert (H3 : R c2 (fst s3)).
  { unfold s3. destruct (p_grav o); auto. pose proof (R_oG Jx (p_svd o) c2 O). destruct (ops_gravity _ _ _ _ _ _); auto. }
  destruct s3 as [c3 F3]. cbn in H3.
  set (s4 := if p_cc o then _ else _).
  assert (H4 : match s4 with Ok (c4, _) => R c3 c4 | _ => True end).
  { unfold s4. destruct (p_cc o); auto. unfold bind.
    destruct (ops_cc _ _ _ _ _ _ _) as [[c4 x4]| |] eqn:E; auto. eapply R_oCC; eauto. }
  destruct s4 as [[c4 F4]| |]; cbn; try discriminate.
  set (s5 := if p_fric o then _ else _).
  assert (H5 : R c4 (fst s5)).
  { unfold s5. destruct (p_fric o); [apply R_oJb; auto|apply Rrefl]. }
  destruct s5 as [c5 F5]. cbn in H5.
  assert (H6 : R c c5) by eauto.
  destruct N as [M|]; intros E; inversion E; subst; auto. eapply Rtrans; [exact H6|]. apply R_oJb; auto.
Qed.
Lemma R_aLinv l off c : oaq -> R c (oa_inertia_inverse ab l off c).
Proof.
  intros O. unfold oa_inertia_inverse. destruct (_ && _); auto.
  assert (X : R c (ensure_Tp ab (ensure_Tw ab c))) by (eapply Rtrans; [apply R_Tw|apply R_Tp]).
  set (c1 := ensure_Tp ab (ensure_Tw ab c)) in *. clearbody c1.
  destruct (for_up _ _ _) as [Ia p]. destruct (for_down _ _ _) as [[[Ia' h] d] [p' u]].
  eapply Rtrans; [exact X|]. eapply Rtrans; [apply (Haba c1 Ia' h d)|]. apply Hoa; auto.
Qed.
Lemma R_aLam l off eps c : oaq -> R c (oa_inertia pinv ab l off eps c).
Proof. intros O. unfold oa_inertia. destruct (_ && _); auto. eapply Rtrans; [apply R_aLinv; auto|]. apply Hoa; auto. Qed.
Lemma R_aCC l off eps c : oaq -> R c (fst (oa_cc pinv ab l off eps c)).
Proof.
  intros O. unfold oa_cc. pose proof (R_Tp c) as X. set (c1 := ensure_Tp ab c) in *. clearbody c1.
  destruct (for_up _ _ _) as [[[v a] Ia] f]. destruct (for_down _ _ _) as [[[[Ia' h] d] f'] ddq]. cbn [fst snd].
  eapply Rtrans; [exact X|]. eapply Rtrans; [apply (Hvel c1 (VD true v))|]. eapply Rtrans; [apply (Hrnea _ (RD a f'))|].
  eapply Rtrans; [exact (Haba (with_rnea (with_vel c1 (VD true v)) (RD a f')) Ia' h d)|]. eapply Rtrans; [apply R_Tw|]. apply R_aLam; auto.
Qed.
Lemma R_aG l off fe eps c : oaq -> R c (fst (oa_gravity pinv ab l off fe eps c)).
Proof.
  intros O. unfold oa_gravity.
  assert (X : R c (ensure_Tp ab (ensure_Tw ab c))) by (eapply Rtrans; [apply R_Tw|apply R_Tp]).
  set (c1 := ensure_Tp ab (ensure_Tw ab c)) in *. clearbody c1.
  destruct (for_up _ _ _) as [Ia f]. destruct (for_down _ _ _) as [[[[Ia' h] d] f'] ddq]. cbn [fst].
  eapply Rtrans; [exact X|]. eapply Rtrans; [apply (Hrnea _ (RD (c_a (ca_rnea c1)) f'))|].
  eapply Rtrans; [exact (Haba (with_rnea c1 (RD (c_a (ca_rnea c1)) f')) Ia' h d)|]. apply R_aLam; auto.
Qed.

Definition allowed (q : query) : Prop :=
  (uses_jacobian q = true -> jq) /\ (uses_opspace q = true -> opq) /\ (uses_opspace_aba q = true -> oaq).

Lemma R_on_cache {A} (f : cache -> res (cache * A)) ab' x :
  (forall c c' y, f c = Ok (c', y) -> R c c') -> on_cache ab f = Ok (ab', x) ->
  exists c c', ab_cache ab = Some c /\ ab' = set_cache ab (Some c') /\ R c c'.
Proof.
  intros H. unfold on_cache. destruct (ab_cache ab) as [c|]; [|discriminate].
  destruct (f c) as [[c' y]| |] eqn:F; cbn; try discriminate. intros E; inversion E; subst.
  exists c, c'. repeat split. eapply H. exact F.
Qed.
Ltac okinv := let H := fresh in intros H; inversion H; subst; clear H.
Ltac inb := match goal with
  | E : bind ?r _ = Ok _ |- _ => unfold bind in E; let Q := fresh "Q" in destruct r as [[? ?]| |] eqn:Q; try discriminate; inversion E; subst; clear E
  end.
Lemma R_ask q ab' x : allowed q -> ask solve pinv q ab = Ok (ab', x) ->
  exists c c', ab_cache ab = Some c /\ ab' = set_cache ab (Some c') /\ R c c'.
Proof.
  intros (AJ & AO & AA) E. destruct q; cbn [uses_jacobian uses_opspace uses_opspace_aba] in AJ, AO, AA;
    try specialize (AJ eq_refl); try specialize (AO eq_refl); try specialize (AA eq_refl);
    cbn [ask] in E; apply wrap_inv in E; destruct E as (y & E & _).
  - unfold q_T_to_parent in E. revert E. apply R_on_cache. intros c c' z. destruct (idx _ _); [|discriminate]. okinv. apply R_Tp.
  - revert E. apply R_on_cache. intros c c' z. destruct (idx _ _); [|discriminate]. okinv. apply R_Tw.
  - unfold q_Position in E. inb. revert Q. apply R_on_cache. intros c c' z. destruct (idx _ _); [|discriminate]. okinv. apply R_Tw.
  - unfold q_Orientation in E. inb. revert Q. apply R_on_cache. intros c c' z. destruct (idx _ _); [|discriminate]. okinv. apply R_Tw.
  - unfold q_CartesianPose in E. inb. revert Q. apply R_on_cache. intros c c' z. destruct (idx _ _); [|discriminate]. okinv. apply R_Tw.
  - revert E. apply R_on_cache. intros c c' z. destruct (idx _ _); [|discriminate]. okinv. apply R_jac; auto.
  - unfold q_LinearJacobian in E. inb. revert Q. apply R_on_cache. intros c c' z. destruct (idx _ _); [|discriminate]. okinv. apply R_jac; auto.
  - unfold q_AngularJacobian in E. destruct (ab_cache ab) as [c0|] eqn:C0; [|discriminate]. inb. rewrite <- C0. revert Q.
    apply R_on_cache. intros c c' z. destruct (idx _ _); [|discriminate]. okinv. apply R_jac; auto.
  - revert E. apply R_on_cache. intros c c' z. destruct (idx _ _); [|discriminate]. okinv.
    eapply Rtrans; [apply R_jac; auto|apply R_Tw].
  - revert E. apply R_on_cache. intros c c' z. okinv. apply R_cc.
  - revert E. apply R_on_cache. intros c c' z. okinv. apply R_grav.
  - revert E. apply R_on_cache. intros c c' z. pose proof (R_ext fe c) as X. destruct (ext_torques ab fe c). okinv. exact X.
  - revert E. apply R_on_cache. intros c c' z. okinv. apply R_crba.
  - revert E. apply R_on_cache. intros c c' z. destruct (idx _ _); [|discriminate]. okinv. apply R_crba.
  - unfold q_InertiaInverse_solve in E. destruct (Nat.eqb _ _); [|discriminate].
    revert E. apply R_on_cache. intros c c' z. okinv. apply R_crbai.
  - unfold q_InverseDynamics in E. destruct (Nat.eqb _ _); [|discriminate].
    revert E. apply R_on_cache. intros c c' z. pose proof (R_id ddq fe o c) as X. destruct (inverse_dynamics ab ddq fe o c). okinv. exact X.
  - unfold q_ForwardDynamics in E. destruct (Nat.eqb _ _); [|discriminate].
    revert E. apply R_on_cache. intros c c' z. pose proof (R_fd tau fe o c) as X. destruct (forward_dynamics _ ab tau fe o c). okinv. exact X.
  - unfold q_ForwardDynamicsAba in E. destruct (Nat.eqb _ _); [|discriminate].
    revert E. apply R_on_cache. intros c c' z. pose proof (R_aba tau fe o c) as X. destruct (forward_dynamics_aba ab tau fe o c). okinv. exact X.
  - revert E. apply R_on_cache. intros c c' z. okinv. apply R_Ainv.
  - assert (X : forall c c' z, (let '(c, t) := velocity_derivative ab ddq fe o c in Ok (c, mat (ab_dof ab) (ab_dof ab) t)) = Ok (c', z) -> R c c').
    { intros c c' z. pose proof (R_veld ddq fe o c) as X. destruct (velocity_derivative ab ddq fe o c). okinv. exact X. }
    unfold q_VelocityDerivative in E. destruct (o_cc o); [destruct (Nat.eqb _ _); [|discriminate]|]; revert E; apply R_on_cache; exact X.
  - unfold q_PositionDerivative in E. destruct (Nat.eqb _ _); [|discriminate].
    revert E. apply R_on_cache. intros c c' z. destruct (_ && _); [discriminate|]. okinv. rewrite id_rnea_slow.
    eapply Rtrans; [apply R_slow|]. eapply Rtrans; [apply R_ifTw|]. apply Hrnea.
  - unfold q_ops_InertiaInverse, with_J in E. destruct (shape _ _ _); [|discriminate].
    revert E. apply R_on_cache. intros c c' z. okinv. apply R_oLinv; auto.
  - unfold q_ops_Inertia, with_J in E. destruct (shape _ _ _); [|discriminate].
    revert E. apply R_on_cache. intros c c' z. okinv. apply R_oLam; auto.
  - unfold q_ops_JacobianDynamicInverse, with_J in E. destruct (shape _ _ _); [|discriminate].
    revert E. apply R_on_cache. intros c c' z. okinv. apply R_oJb; auto.
  - unfold q_ops_IsSingular, with_J in E. destruct (shape _ _ _); [|discriminate].
    revert E. apply R_on_cache. intros c c' z. okinv. apply R_oLam; auto.
  - unfold q_ops_CentrifugalCoriolis, with_J in E. destruct (shape _ _ _); [|discriminate].
    revert E. apply R_on_cache. intros c c' z H. eapply R_oCC; eauto.
  - unfold q_ops_Gravity, with_J in E. destruct (shape _ _ _); [|discriminate].
    revert E. apply R_on_cache. intros c c' z H. pose proof (R_oG J eps c AO) as X. inversion H; subst. exact X.
  - unfold q_ops_ExternalForces, with_J in E. destruct (shape _ _ _); [|discriminate].
    revert E. apply R_on_cache. intros c c' z H. pose proof (R_oE J fe eps c AO) as X.
    destruct (ops_external _ _ _ _ _ _ _). inversion H; subst. exact X.
  - unfold q_ops_Friction, with_J in E. destruct (Nat.ltb _ _); [discriminate|]. destruct (shape _ _ _); [|discriminate].
    revert E. apply R_on_cache. intros c c' z H. inversion H. apply R_oJb; auto.
  - assert (X : forall c c' z, ops_inverse_dynamics solve pinv ab J ddx N fe fe_empty o c = Ok (c', z) -> R c c')
      by (intros c c' z H; eapply R_oID; eauto).
    unfold q_ops_InverseDynamics, with_J in E. destruct (negb _); [discriminate|].
    destruct N as [[|]|]; [|destruct (shape (ab_dof ab) _ _); [|discriminate]|];
      (destruct (shape _ _ J); [|discriminate]); revert E; apply R_on_cache; exact X.
  - revert E. apply R_on_cache. intros c c' z. destruct (idx _ _); [|discriminate]. okinv. apply R_aLinv; auto.
  - revert E. apply R_on_cache. intros c c' z. destruct (idx _ _); [|discriminate]. okinv. apply R_aLam; auto.
  - revert E. apply R_on_cache. intros c c' z. destruct (idx _ _) as [m|]; [|discriminate]. intros H.
    pose proof (R_aCC m off eps c AA) as X. destruct (oa_cc _ _ _ _ _ _). inversion H; subst. exact X.
  - revert E. apply R_on_cache. intros c c' z. destruct (idx _ _) as [m|]; [|discriminate]. intros H.
    pose proof (R_aG m off fe eps c AA) as X. destruct (oa_gravity _ _ _ _ _ _ _). inversion H; subst. exact X.
Qed.
Lemma R_step q ab' : allowed q -> step solve pinv (OAsk q) ab = Some ab' ->
  ab' = ab \/ exists c c', ab_cache ab = Some c /\ ab' = set_cache ab (Some c') /\ R c c'.
Proof.
  intros A. cbn [step]. destruct (ask solve pinv q ab) as [[a1 x]| |] eqn:Q; try discriminate.
  - intros E; inversion E; subst. right. eapply R_ask; eauto.
  - destruct q; try (intros E; inversion E; subst; left; reflexivity).
    intros E. destruct (q_ops_InverseDynamics _ _ _ _ _ _ _ _ _) as [[a1 y]| |] eqn:Q2; inversion E; subst. right.
    eapply (R_ask (QoID _ ddx None fe fe_empty _)); [exact A|]. cbn [ask]. rewrite Q2. reflexivity.
Qed.
End Closed.

(** ** What is computed once and then left alone *)
Record keeps (c c' : cache) : Prop := {
  k_Tp : is_Tp (ca_T c) = true -> is_Tp (ca_T c') = true /\ c_Tp (ca_T c') = c_Tp (ca_T c);
  k_Tw : is_Tw (ca_T c) = true -> is_Tw (ca_T c') = true /\ c_Tw (ca_T c') = c_Tw (ca_T c);
  k_cc : is_cc (ca_cc c) = true -> is_cc (ca_cc c') = true /\ c_C (ca_cc c') = c_C (ca_cc c);
  k_grav : is_grav (ca_grav c) = true -> is_grav (ca_grav c') = true /\ c_G (ca_grav c') = c_G (ca_grav c);
  k_crba : is_crba (ca_crba c) = true -> is_crba (ca_crba c') = true /\
    c_A (ca_crba c') = c_A (ca_crba c) /\ c_Ic (ca_crba c') = c_Ic (ca_crba c);
  k_crbai : is_crba_inv (ca_crba c) = true -> is_crba_inv (ca_crba c') = true /\ c_Afact (ca_crba c') = c_Afact (ca_crba c);
  k_Ainv : is_Ainv (ca_aba c) = true -> is_Ainv (ca_aba c') = true /\ c_Ainv (ca_aba c') = c_Ainv (ca_aba c)
}.
Lemma keeps_refl c : keeps c c.
Proof. constructor; auto. Qed.
Lemma keeps_trans a b c : keeps a b -> keeps b c -> keeps a c.
Proof.
  intros [] []; constructor; intros H.
  - destruct (k_Tp0 H) as [F ->%eq_sym]. auto.
  - destruct (k_Tw0 H) as [F ->%eq_sym]. auto.
  - destruct (k_cc0 H) as [F ->%eq_sym]. auto.
  - destruct (k_grav0 H) as [F ->%eq_sym]. auto.
  - destruct (k_crba0 H) as (F & ->%eq_sym & ->%eq_sym). auto.
  - destruct (k_crbai0 H) as [F ->%eq_sym]. auto.
  - destruct (k_Ainv0 H) as [F ->%eq_sym]. auto.
Qed.
Ltac kp := intros; constructor; cbn; intros; auto; congruence.
Lemma keeps_step q ab ab' : step solve pinv (OAsk q) ab = Some ab' ->
  ab' = ab \/ exists c c', ab_cache ab = Some c /\ ab' = set_cache ab (Some c') /\ keeps c c'.
Proof.
  apply (R_step ab keeps True True True); try exact keeps_refl; try exact keeps_trans; try solve [kp].
Qed.
Lemma jac_step q ab ab' : uses_jacobian q = false -> step solve pinv (OAsk q) ab = Some ab' ->
  ab' = ab \/ exists c c', ab_cache ab = Some c /\ ab' = set_cache ab (Some c') /\ ca_jac c' = ca_jac c.
Proof.
  intros U. apply (R_step ab (fun c c' => ca_jac c' = ca_jac c) False True True); try solve [cbn; intros; congruence]; try contradiction.
  split; [rewrite U; discriminate|auto].
Qed.
Lemma op_step q ab ab' : uses_opspace q = false -> step solve pinv (OAsk q) ab = Some ab' ->
  ab' = ab \/ exists c c', ab_cache ab = Some c /\ ab' = set_cache ab (Some c') /\ ca_op c' = ca_op c.
Proof.
  intros U. apply (R_step ab (fun c c' => ca_op c' = ca_op c) True False True); try solve [cbn; intros; congruence]; try contradiction.
  split; [auto|split; [rewrite U; discriminate|auto]].
Qed.
Lemma oa_step q ab ab' : uses_opspace_aba q = false -> step solve pinv (OAsk q) ab = Some ab' ->
  ab' = ab \/ exists c c', ab_cache ab = Some c /\ ab' = set_cache ab (Some c') /\ ca_oa c' = ca_oa c.
Proof.
  intros U. apply (R_step ab (fun c c' => ca_oa c' = ca_oa c) True True False); try solve [cbn; intros; congruence]; try contradiction.
  split; [auto|split; [auto|rewrite U; discriminate]].
Qed.

(** ** References *)
Definition lit (r : ref) (c : cache) : bool :=
  match r with
  | RTp _ => is_Tp (ca_T c) | RTw _ => is_Tw (ca_T c) | RCC => is_cc (ca_cc c) | RGrav => is_grav (ca_grav c)
  | RInertia | RComp _ => is_crba (ca_crba c) | RLdlt _ => is_crba_inv (ca_crba c) | RAinvAba => is_Ainv (ca_aba c)
  | _ => true
  end.
Lemma lit_Tp ab c : is_Tp (ca_T (ensure_Tp ab c)) = true.
Proof. unfold ensure_Tp. destruct (is_Tp (ca_T c)) eqn:E; [exact E|reflexivity]. Qed.
Lemma lit_Tw ab c : is_Tw (ca_T (ensure_Tw ab c)) = true.
Proof. unfold ensure_Tw. destruct (is_Tw (ca_T c)) eqn:E; [exact E|]. reflexivity. Qed.
Lemma lit_cc ab c : is_cc (ca_cc (ensure_cc ab c)) = true.
Proof. unfold ensure_cc. destruct (is_cc (ca_cc c)) eqn:E; [exact E|]. destruct (for_up _ _ _) as [[? ?] ?]. destruct (for_down _ _ _). reflexivity. Qed.
Lemma lit_grav ab c : is_grav (ca_grav (ensure_grav ab c)) = true.
Proof. unfold ensure_grav. destruct (is_grav (ca_grav c)) eqn:E; [exact E|]. destruct (for_down _ _ _). reflexivity. Qed.
Lemma lit_crba ab c : is_crba (ca_crba (ensure_crba ab c)) = true.
Proof. unfold ensure_crba. destruct (is_crba (ca_crba c)) eqn:E; [exact E|]. destruct (for_down _ _ _). reflexivity. Qed.
Lemma lit_crbai ab c : is_crba_inv (ca_crba (ensure_crba_inv ab c)) = true.
Proof. unfold ensure_crba_inv. destruct (is_crba_inv (ca_crba c)) eqn:E; [exact E|]. reflexivity. Qed.
Lemma lit_Ainv ab c : is_Ainv (ca_aba (ensure_Ainv ab c)) = true.
Proof.
  unfold ensure_Ainv. destruct (is_Ainv (ca_aba c)) eqn:E; [exact E|]. destruct (for_down _ _ _) as [[[? ?] ?] [? ?]].
  destruct (for_up _ _ _). reflexivity.
Qed.

Lemma asked_seen q ab ab1 x r : ask solve pinv q ab = Ok (ab1, x) -> refers (ab_dof ab) q = Some r ->
  seen solve r ab1 = Ok x /\ exists c1, ab_cache ab1 = Some c1 /\ lit r c1 = true /\ ab_dof ab1 = ab_dof ab.
Proof.
  intros E H. destruct q; cbn [refers] in H; try discriminate H;
    cbn [ask] in E; apply wrap_inv in E; destruct E as (y & E & ->).
  - unfold q_T_to_parent, on_cache in E. destruct (ab_cache ab) as [c|]; [|discriminate].
    destruct (idx _ _); cbn in H, E; inversion H; inversion E; subst. cbn. split; auto. eexists; repeat split. apply lit_Tp.
  - unfold q_T_to_world, on_cache in E. destruct (ab_cache ab) as [c|]; [|discriminate].
    destruct (idx _ _); cbn in H, E; inversion H; inversion E; subst. cbn. split; auto. eexists; repeat split. apply lit_Tw.
  - unfold q_Jacobian, on_cache in E. destruct (ab_cache ab) as [c|]; [|discriminate].
    destruct (idx _ _); cbn in E; inversion H; inversion E; subst. cbn. split; auto. eexists; repeat split.
  - unfold q_LinearJacobian, q_Jacobian, on_cache in E. destruct (ab_cache ab) as [c|]; [|discriminate].
    destruct (idx _ _); cbn in E; inversion H; inversion E; subst. cbn. split; auto. eexists; repeat split.
  - unfold q_AngularJacobian, q_Jacobian, on_cache in E. destruct (ab_cache ab) as [c|]; [|discriminate].
    destruct (idx _ _); cbn in E; inversion H; inversion E; subst. cbn. split; auto. eexists; repeat split.
  - unfold q_CentrifugalCoriolis, on_cache in E. destruct (ab_cache ab) as [c|]; [|discriminate].
    cbn in E; inversion H; inversion E; subst. cbn. split; auto. eexists; repeat split. apply lit_cc.
  - unfold q_Gravity, on_cache in E. destruct (ab_cache ab) as [c|]; [|discriminate].
    cbn in E; inversion H; inversion E; subst. cbn. split; auto. eexists; repeat split. apply lit_grav.
  - unfold q_Inertia, on_cache in E. destruct (ab_cache ab) as [c|]; [|discriminate].
    cbn in E; inversion H; inversion E; subst. cbn. split; auto. eexists; repeat split. apply lit_crba.
  - unfold q_CompositeInertia, on_cache in E. destruct (ab_cache ab) as [c|]; [|discriminate].
    destruct (idx _ _); cbn in H, E; inversion H; inversion E; subst. cbn. split; auto. eexists; repeat split. apply lit_crba.
  - unfold q_InertiaInverse_solve, on_cache in E. destruct (Nat.eqb _ _); [|discriminate]. destruct (ab_cache ab) as [c|]; [|discriminate].
    cbn in E; inversion H; inversion E; subst. cbn. split; auto. eexists; repeat split. apply lit_crbai.
  - unfold q_InertiaInverseAba, on_cache in E. destruct (ab_cache ab) as [c|]; [|discriminate].
    cbn in E; inversion H; inversion E; subst. cbn. split; auto. eexists; repeat split. apply lit_Ainv.
  - unfold q_ops_InertiaInverse, with_J, on_cache in E. destruct (shape _ _ _); [|discriminate]. destruct (ab_cache ab) as [c|]; [|discriminate].
    cbn in E; inversion H; inversion E; subst. cbn. split; auto. eexists; repeat split.
  - unfold q_ops_Inertia, with_J, on_cache in E. destruct (shape _ _ _); [|discriminate]. destruct (ab_cache ab) as [c|]; [|discriminate].
    cbn in E; inversion H; inversion E; subst. cbn. split; auto. eexists; repeat split.
  - unfold q_ops_JacobianDynamicInverse, with_J, on_cache in E. destruct (shape _ _ _); [|discriminate]. destruct (ab_cache ab) as [c|]; [|discriminate].
    cbn in E; inversion H; inversion E; subst. cbn. split; auto. eexists; repeat split.
  - unfold q_ops_InertiaInverseAba, on_cache in E. destruct (ab_cache ab) as [c|]; [|discriminate].
    destruct (idx _ _); cbn in E; inversion H; inversion E; subst. cbn. split; auto. eexists; repeat split.
  - unfold q_ops_InertiaAba, on_cache in E. destruct (ab_cache ab) as [c|]; [|discriminate].
    destruct (idx _ _); cbn in E; inversion H; inversion E; subst. cbn. split; auto. eexists; repeat split.
Qed.

(** A query that may not overwrite the object leaves it as it is. *)
Lemma ask_keeps r q ab ab' c : may_overwrite q r = false -> ab_cache ab = Some c -> lit r c = true ->
  step solve pinv (OAsk q) ab = Some ab' ->
  seen solve r ab' = seen solve r ab /\ exists c', ab_cache ab' = Some c' /\ lit r c' = true /\ same_state ab ab'.
Proof.
  intros M C L E.
  assert (G : ab' = ab \/ exists c', ab' = set_cache ab (Some c') /\ keeps c c' /\ (uses_jacobian q = false -> ca_jac c' = ca_jac c) /\
     (uses_opspace q = false -> ca_op c' = ca_op c) /\ (uses_opspace_aba q = false -> ca_oa c' = ca_oa c)).
  { destruct (keeps_step _ _ _ E) as [X|(c0 & c' & C0 & -> & KP)]; [auto|]. right.
    assert (c0 = c) by congruence. subst c0. exists c'. split; [reflexivity|]. split; [exact KP|].
    assert (Z : forall P : cache -> Prop, P c -> (set_cache ab (Some c') = ab \/
              exists d d', ab_cache ab = Some d /\ set_cache ab (Some c') = set_cache ab (Some d') /\ (d = c -> P d')) -> P c').
    { intros P Pc [X|(d & d' & D & X & PX)].
      - assert (Y : ab_cache (set_cache ab (Some c')) = ab_cache ab) by (rewrite X; reflexivity). cbn in Y. rewrite C in Y. inversion Y; subst. exact Pc.
      - assert (Y : ab_cache (set_cache ab (Some c')) = ab_cache (set_cache ab (Some d'))) by (rewrite X; reflexivity).
        cbn in Y. inversion Y; subst. apply PX. congruence. }
    repeat split; intros U.
    - apply (Z (fun c' => ca_jac c' = ca_jac c)); auto. destruct (jac_step _ _ _ U E) as [X|(d & d' & D & X & PX)]; [auto|].
      right. exists d, d'. repeat split; auto. intros <-. exact PX.
    - apply (Z (fun c' => ca_op c' = ca_op c)); auto. destruct (op_step _ _ _ U E) as [X|(d & d' & D & X & PX)]; [auto|].
      right. exists d, d'. repeat split; auto. intros <-. exact PX.
    - apply (Z (fun c' => ca_oa c' = ca_oa c)); auto. destruct (oa_step _ _ _ U E) as [X|(d & d' & D & X & PX)]; [auto|].
      right. exists d, d'. repeat split; auto. intros <-. exact PX. }
  destruct G as [->|(c' & -> & KP & KJ & KO & KA)].
  - split; [reflexivity|]. exists c. split; [exact C|]. split; [exact L|]. repeat split.
  - split; [|exists c'; split; [reflexivity|]; split; [|apply same_set_cache]].
    + unfold seen. cbn [ab_cache set_cache ab_dof]. rewrite C. f_equal. destruct KP.
      destruct r; cbn [may_overwrite lit] in M, L.
      * destruct (k_Tp0 L) as [_ ->]; auto.
      * destruct (k_Tw0 L) as [_ ->]; auto.
      * rewrite KJ; auto.
      * rewrite KJ; auto.
      * rewrite KJ; auto.
      * destruct (k_cc0 L) as [_ ->]; auto.
      * destruct (k_grav0 L) as [_ ->]; auto.
      * destruct (k_crba0 L) as (_ & -> & _); auto.
      * destruct (k_crba0 L) as (_ & _ & ->); auto.
      * destruct (k_crbai0 L) as [_ ->]; auto.
      * destruct (k_Ainv0 L) as [_ ->]; auto.
      * rewrite KO; auto.
      * rewrite KO; auto.
      * rewrite KO; auto.
      * rewrite KA; auto.
      * rewrite KA; auto.
    + destruct KP. destruct r; cbn [lit] in *; auto; try (apply k_crba0; auto; fail);
        first [apply k_Tp0|apply k_Tw0|apply k_cc0|apply k_grav0|apply k_crbai0|apply k_Ainv0]; auto.
Qed.
End RefProofs.
