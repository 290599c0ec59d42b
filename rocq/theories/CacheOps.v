(** Every API call keeps the cache coherent; query results are those of a cold cache. *)
From Coq Require Import List Arith ZArith Bool Lia Floats.SpecFloat.
From Verif Require Import Scalar Base Spatial Joint Body Kin InvDyn FwdDyn Opspace OpspaceAba Deriv Sim Ops Specs SpecCache TreeProofs CacheProofs Instances.
Import ListNotations.

Section CacheOps.
Context {S : Scal}.
Variable solve : list (list K) -> list K -> list K.
Variable pinv : list (list K) -> K -> list (list K) * bool.

Definition same_state (a b : body) : Prop :=
  ab_dof a = ab_dof b /\ ab_rbs a = ab_rbs b /\ ab_q a = ab_q b /\ ab_dq a = ab_dq b /\ ab_g a = ab_g b /\
  ab_loads a = ab_loads b /\ ab_Tbase a = ab_Tbase b /\ ab_anc a = ab_anc b /\ ab_sub a = ab_sub b.
Lemma inv_same_state a b c : same_state a b -> inv a c -> inv b c.
Proof.
  destruct a, b. unfold same_state. cbn. intros (-> & -> & -> & -> & -> & -> & -> & -> & ->) H.
  destruct H as [H1 H2 H3 H4 H5 H6 H7 H8]. constructor; [exact H1|exact H2|exact H3|exact H4|exact H5|exact H6|exact H7|exact H8].
Qed.
Lemma same_set_cache ab x : same_state ab (set_cache ab x).
Proof. repeat split. Qed.

Definition wfc (ab : body) : Prop := exists c, ab_cache ab = Some c /\ inv ab c.

Lemma on_cache_inv {A} ab (f : cache -> res (cache * A)) ab' x :
  (forall c c' y, inv ab c -> f c = Ok (c', y) -> inv ab c') -> wfc ab -> on_cache ab f = Ok (ab', x) -> wfc ab'.
Proof.
  intros H (c & E & V). unfold on_cache. rewrite E. destruct (f c) as [[c' y]| |] eqn:F; cbn; try discriminate.
  intros X; inversion X; subst. exists c'. split; auto. eapply inv_same_state; [apply same_set_cache|]. eauto.
Qed.

Ltac okinv := let H := fresh in intros H; inversion H; subst; clear H.

Lemma ask_inv {AC : AddComm S} q ab ab' x : tree_ok ab -> wfc ab -> ask solve pinv q ab = Ok (ab', x) -> wfc ab'.
Proof.
  intros T W E. destruct q; cbn in E; apply wrap_inv in E; destruct E as (y & E & _).
  - revert E. apply on_cache_inv; auto. intros c c' z V. destruct (idx _ _); [|discriminate]. okinv. apply ensure_Tp_inv; auto.
  - revert E. apply on_cache_inv; auto. intros c c' z V. destruct (idx _ _); [|discriminate]. okinv. apply ensure_Tw_inv; auto.
  - unfold q_Position, bind in E. destruct (q_T_to_world l ab) as [[a1 t]| |] eqn:Q; try discriminate. inversion E; subst.
    revert Q. apply on_cache_inv; auto. intros c c' z V. destruct (idx _ _); [|discriminate]. okinv. apply ensure_Tw_inv; auto.
  - unfold q_Orientation, bind in E. destruct (q_T_to_world l ab) as [[a1 t]| |] eqn:Q; try discriminate. inversion E; subst.
    revert Q. apply on_cache_inv; auto. intros c c' z V. destruct (idx _ _); [|discriminate]. okinv. apply ensure_Tw_inv; auto.
  - unfold q_CartesianPose, bind in E. destruct (q_T_to_world l ab) as [[a1 t]| |] eqn:Q; try discriminate. inversion E; subst.
    revert Q. apply on_cache_inv; auto. intros c c' z V. destruct (idx _ _); [|discriminate]. okinv. apply ensure_Tw_inv; auto.
  - revert E. apply on_cache_inv; auto. intros c c' z V. destruct (idx _ _) eqn:Q; [|discriminate]. okinv.
    apply idx_spec in Q. apply ensure_jac_inv; tauto.
  - unfold q_LinearJacobian, bind in E. destruct (q_Jacobian l off ab) as [[a1 t]| |] eqn:Q; try discriminate. inversion E; subst.
    revert Q. apply on_cache_inv; auto. intros c c' z V. destruct (idx _ _) eqn:Q; [|discriminate]. okinv.
    apply idx_spec in Q. apply ensure_jac_inv; tauto.
  - unfold q_AngularJacobian, bind in E. destruct (ab_cache ab) as [c0|]; [|discriminate].
    destruct (q_Jacobian l _ ab) as [[a1 t]| |] eqn:Q; try discriminate. inversion E; subst.
    revert Q. apply on_cache_inv; auto. intros c c' z V. destruct (idx _ _) eqn:Q; [|discriminate]. okinv.
    apply idx_spec in Q. apply ensure_jac_inv; tauto.
  - revert E. apply on_cache_inv; auto. intros c c' z V. destruct (idx _ _) eqn:Q; [|discriminate]. okinv.
    apply idx_spec in Q. apply ensure_Tw_inv; auto. apply ensure_jac_inv; tauto.
  - revert E. apply on_cache_inv; auto. intros c c' z V. okinv. apply ensure_cc_inv; auto.
  - revert E. apply on_cache_inv; auto. intros c c' z V. okinv. apply ensure_grav_inv; auto.
  - revert E. apply on_cache_inv; auto. intros c c' z V. destruct (ext_torques_inv ab T fe c V) as [X _].
    destruct (ext_torques ab fe c). okinv. exact X.
  - revert E. apply on_cache_inv; auto. intros c c' z V. okinv. apply ensure_crba_inv_ok; auto.
  - revert E. apply on_cache_inv; auto. intros c c' z V. destruct (idx _ _); [|discriminate]. okinv. apply ensure_crba_inv_ok; auto.
  - unfold q_InertiaInverse_solve in E. destruct (Nat.eqb _ _); [|discriminate].
    revert E. apply on_cache_inv; auto. intros c c' z V. okinv. apply ensure_crba_inv_inv; auto.
  - unfold q_InverseDynamics in E. destruct (Nat.eqb _ _); [|discriminate].
    revert E. apply on_cache_inv; auto. intros c c' z V. pose proof (inverse_dynamics_inv ab T ddq fe o c V).
    destruct (inverse_dynamics ab ddq fe o c). okinv. auto.
  - unfold q_ForwardDynamics in E. destruct (Nat.eqb _ _); [|discriminate].
    revert E. apply on_cache_inv; auto. intros c c' z V. pose proof (forward_dynamics_inv solve ab T tau fe o c V).
    destruct (forward_dynamics _ ab tau fe o c). okinv. auto.
  - unfold q_ForwardDynamicsAba in E. destruct (Nat.eqb _ _); [|discriminate].
    revert E. apply on_cache_inv; auto. intros c c' z V. pose proof (forward_dynamics_aba_inv ab T tau fe o c V).
    destruct (forward_dynamics_aba ab tau fe o c). okinv. auto.
  - revert E. apply on_cache_inv; auto. intros c c' z V. okinv. apply ensure_Ainv_inv; auto.
  - unfold q_VelocityDerivative in E.
    assert (X : forall c c' z, inv ab c -> (let '(c, t) := velocity_derivative ab ddq fe o c in Ok (c, mat (ab_dof ab) (ab_dof ab) t)) = Ok (c', z) -> inv ab c').
    { intros c c' z V. pose proof (velocity_derivative_inv ab T ddq fe o c V). destruct (velocity_derivative ab ddq fe o c). okinv. auto. }
    destruct (o_cc o); [destruct (Nat.eqb _ _); [|discriminate]|]; revert E; apply on_cache_inv; auto.
  - unfold q_PositionDerivative in E. destruct (Nat.eqb _ _); [|discriminate].
    revert E. apply on_cache_inv; auto. intros c c' z V. destruct (_ && _); [discriminate|]. okinv.
    apply inv_rnea. destruct (_ || _); [apply ensure_Tw_inv; auto|]; apply id_rnea_inv; auto.
  - unfold q_ops_InertiaInverse, with_J in E. destruct (shape _ _ _); [|discriminate].
    revert E. apply on_cache_inv; auto. intros c c' z V. okinv. apply ops_inertia_inverse_inv; auto.
  - unfold q_ops_Inertia, with_J in E. destruct (shape _ _ _); [|discriminate].
    revert E. apply on_cache_inv; auto. intros c c' z V. okinv. apply ops_inertia_inv; auto.
  - unfold q_ops_JacobianDynamicInverse, with_J in E. destruct (shape _ _ _); [|discriminate].
    revert E. apply on_cache_inv; auto. intros c c' z V. okinv. apply ops_jbar_inv; auto.
  - unfold q_ops_IsSingular, with_J in E. destruct (shape _ _ _); [|discriminate].
    revert E. apply on_cache_inv; auto. intros c c' z V. okinv. apply ops_inertia_inv; auto.
  - unfold q_ops_CentrifugalCoriolis, with_J in E. destruct (shape _ _ _); [|discriminate].
    revert E. apply on_cache_inv; auto. intros c c' z V H. eapply ops_cc_inv; eauto.
  - unfold q_ops_Gravity, with_J in E. destruct (shape _ _ _); [|discriminate].
    revert E. apply on_cache_inv; auto. intros c c' z V H. inversion H. apply ensure_grav_inv, ops_jbar_inv; auto.
  - unfold q_ops_ExternalForces, with_J in E. destruct (shape _ _ _); [|discriminate].
    revert E. apply on_cache_inv; auto. intros c c' z V H.
    pose proof (ops_external_inv solve pinv ab T J fe eps c V) as X. destruct (ops_external _ _ _ _ _ _ _). inversion H; subst. exact X.
  - unfold q_ops_Friction, with_J in E. destruct (Nat.ltb _ _); [discriminate|]. destruct (shape _ _ _); [|discriminate].
    revert E. apply on_cache_inv; auto. intros c c' z V H. inversion H. apply ops_jbar_inv; auto.
  - assert (X : forall c c' z, inv ab c -> ops_inverse_dynamics solve pinv ab J ddx N fe fe_empty o c = Ok (c', z) -> inv ab c')
      by (intros c c' z V H; eapply ops_inverse_dynamics_inv; eauto).
    unfold q_ops_InverseDynamics, with_J in E. destruct (negb _); [discriminate|].
    destruct N as [[|]|]; [|destruct (shape (ab_dof ab) _ _); [|discriminate]|];
      (destruct (shape _ _ J); [|discriminate]); revert E; apply on_cache_inv; auto.
  - revert E. apply on_cache_inv; auto. intros c c' z V. destruct (idx _ _); [|discriminate]. okinv. apply oa_inertia_inverse_inv; auto.
  - revert E. apply on_cache_inv; auto. intros c c' z V. destruct (idx _ _); [|discriminate]. okinv. apply oa_inertia_inv; auto.
  - revert E. apply on_cache_inv; auto. intros c c' z V. destruct (idx _ _) as [m|]; [|discriminate]. intros H.
    pose proof (oa_cc_inv pinv ab T kadd_comm m off eps c V) as X. destruct (oa_cc _ _ _ _ _ _). inversion H; subst. exact X.
  - revert E. apply on_cache_inv; auto. intros c c' z V. destruct (idx _ _) as [m|]; [|discriminate]. intros H.
    pose proof (oa_gravity_inv pinv ab T m off fe eps c V) as X. destruct (oa_gravity _ _ _ _ _ _ _). inversion H; subst. exact X.
Qed.
Lemma sim_fd_inv {AC : AddComm S} aba tau fe o ab ab' x : tree_ok ab -> wfc ab -> sim_fd solve aba tau fe o ab = Ok (ab', x) -> wfc ab'.
Proof.
  intros T W E. unfold sim_fd in E. destruct aba.
  - apply (ask_inv (QAba tau fe o) ab ab' (AVec x)); auto. cbn. rewrite E. reflexivity.
  - apply (ask_inv (QFD tau fe o) ab ab' (AVec x)); auto. cbn. rewrite E. reflexivity.
Qed.

(** Clearing flags. *)
Ltac inv_same H := destruct H; constructor; cbn in *; auto; try discriminate.
Lemma inv_clear_dynamics ab c : inv ab c -> inv ab (clear_dynamics c).
Proof. intros H; inv_same H. Qed.
Lemma inv_set_q q ab ab' : wfc ab -> set_q q ab = Ret ab' tt -> wfc ab'.
Proof.
  intros (c & E & V). unfold set_q. destruct (negb _); [discriminate|]. destruct (negb _); [discriminate|].
  destruct (veqb _ _); okinv; [exists c; auto|]. rewrite E. eexists. split; [reflexivity|].
  apply (inv_all_clear _ c).
Qed.
Lemma inv_set_dq q ab ab' : wfc ab -> set_dq q ab = Ret ab' tt -> wfc ab'.
Proof.
  intros (c & E & V). unfold set_dq. destruct (negb _); [discriminate|]. destruct (negb _); [discriminate|].
  destruct (veqb _ _); okinv; [exists c; auto|]. rewrite E. eexists. split; [reflexivity|].
  destruct ab; cbn in *. inv_same V.
Qed.
Lemma inv_put io q dq ab ab' : wfc ab -> put io q dq ab = Ok ab' -> wfc ab'.
Proof.
  intros W E. apply put_inv in E. destruct E as (q' & ab1 & dq' & E1 & E2).
  eapply inv_set_dq; [|exact E2]. eapply inv_set_q; eauto.
Qed.

(** [asked] = false: nothing cached yet, whatever the state. *)
Definition P (asked : bool) (ab : body) : Prop :=
  exists c, ab_cache ab = Some c /\ if asked then inv ab c else forall ab', inv ab' c.
Lemma P_wfc b ab : P b ab -> wfc ab.
Proof. intros (c & E & H). exists c. split; auto. destruct b; auto. Qed.
Lemma P_true ab : wfc ab -> P true ab.
Proof. intros H; exact H. Qed.

Definition asks (o : op) : bool := match o with OAsk _ | OIntegrate _ _ _ _ _ _ => true | _ => false end.
Definition moves_base (o : op) : bool := match o with OSetBase _ => true | _ => false end.
Lemma P_step {AC : AddComm S} b o ab ab' : tree_ok ab -> P b ab -> negb (b && moves_base o) = true ->
  step solve pinv o ab = Some ab' -> P (b || asks o) ab'.
Proof.
  intros T H Hb E. pose proof (P_wfc _ _ H) as W. destruct o; cbn [asks moves_base step] in *; rewrite ?orb_false_r, ?orb_true_r in *.
  - (* add *)
    destruct (add_rigid_body rb p ab) as [a1 id|a1|] eqn:Q; cbn in E; inversion E; subst; [|apply add_exn in Q; subst; auto].
    unfold add_rigid_body in Q. destruct (_ || _)%Z; [discriminate|]. inversion Q; subst; clear Q.
    destruct W as (c & Ec & _). unfold P. cbn. rewrite Ec. eexists. split; [reflexivity|].
    destruct b; intros; apply inv_all_clear.
  - destruct (set_q q ab) as [a1 []|a1|] eqn:Q; cbn in E; inversion E; subst; [|apply set_q_exn in Q; subst; auto].
    destruct b; [eapply inv_set_q; eauto|]. destruct H as (c & Ec & V).
    clear Hb. unfold set_q in Q. destruct (negb _); [discriminate|]. destruct (negb _); [discriminate|].
    destruct (veqb _ _); inversion Q; subst; [exists c; auto|]. unfold P. cbn. rewrite Ec. eexists. split; [reflexivity|].
    intros ab'. apply (inv_all_clear ab' c).
  - destruct (set_dq dq ab) as [a1 []|a1|] eqn:Q; cbn in E; inversion E; subst; [|apply set_dq_exn in Q; subst; auto].
    destruct b; [eapply inv_set_dq; eauto|]. destruct H as (c & Ec & V).
    clear Hb. unfold set_dq in Q. destruct (negb _); [discriminate|]. destruct (negb _); [discriminate|].
    destruct (veqb _ _); inversion Q; subst; [exists c; auto|]. unfold P. cbn. rewrite Ec. eexists. split; [reflexivity|].
    intros ab'. specialize (V ab'). inv_same V.
  - cbn in E. inversion E; subst; clear E. destruct H as (c & Ec & V). unfold P. cbn. rewrite Ec. eexists. split; [reflexivity|].
    destruct b; [destruct ab; cbn in *; inv_same V|]. intros ab'. specialize (V ab'). inv_same V.
  - unfold add_load, set_loads in E. destruct (ab_cache ab) eqn:Ec0; cbn in E; inversion E; subst; clear E.
    destruct H as (c0 & Ec & V). assert (c0 = c) by congruence. subst. eexists. split; [reflexivity|].
    destruct b; [destruct ab; cbn in *; inv_same V|]. intros ab'. apply inv_clear_dynamics; auto.
  - unfold replace_load, set_loads in E. destruct (ab_cache ab) eqn:Ec0; cbn in E; inversion E; subst; clear E.
    destruct H as (c0 & Ec & V). assert (c0 = c) by congruence. subst. eexists. split; [reflexivity|].
    destruct b; [destruct ab; cbn in *; inv_same V|]. intros ab'. apply inv_clear_dynamics; auto.
  - unfold clear_load, set_loads in E. destruct (ab_cache ab) eqn:Ec0; cbn in E; inversion E; subst; clear E.
    destruct H as (c0 & Ec & V). assert (c0 = c) by congruence. subst. eexists. split; [reflexivity|].
    destruct b; [destruct ab; cbn in *; inv_same V|]. intros ab'. apply inv_clear_dynamics; auto.
  - cbn in E. inversion E; subst; clear E. destruct b; [discriminate Hb|]. destruct H as (c & Ec & V). exists c. auto.
  - destruct (set_inertia_base I ab) as [a1 []|a1|] eqn:Q; cbn in E; inversion E; subst; [|apply set_inertia_base_exn in Q; subst; auto].
    unfold set_inertia_base in Q. destruct (klt _ _); [discriminate|]. inversion Q; subst; clear Q.
    destruct H as (c & Ec & V). exists c. split; auto. destruct b; auto. eapply inv_same_state; [|exact V]. repeat split.
  - unfold body_copy in E. destruct H as (c & Ec & V). rewrite Ec in E. inversion E; subst; clear E.
    exists c. split; auto. destruct b; auto. eapply inv_same_state; [|exact V]. repeat split.
  - destruct (integrate _ _ _ _) as [a1| |] eqn:Q; inversion E; subst; clear E.
    assert (X : tree_ok ab' /\ wfc ab').
    { eapply (integrate_ind (fun a => tree_ok a /\ wfc a)); [| |split; [exact T|exact W]|exact Q].
      - intros a a' x [Ta Wa] F. split; [|eapply sim_fd_inv; eauto].
        apply (sim_fd_frame solve pinv) in F. destruct F as [c ->]. apply tree_set_cache; auto.
      - intros a a' x y [Ta Wa] F. split; [eapply tree_put; eauto|eapply inv_put; eauto]. }
    apply X.
  - change (wfc ab'). destruct (ask solve pinv q ab) as [[a1 x]| |] eqn:Q; inversion E; subst; clear E.
    + eapply ask_inv; eauto.
    + destruct q; try (inversion H1; subst; exact W).
      destruct (q_ops_InverseDynamics _ _ _ _ _ _ _ _ _) as [[a1 y]| |] eqn:Q2; inversion H1; subst; clear H1.
      eapply (ask_inv (QoID _ ddx None fe fe_empty _) ab ab'); auto. cbn. rewrite Q2. cbn. reflexivity.
Qed.

Lemma P_run {AC : AddComm S} h : forall b ab ab', tree_ok ab -> P b ab -> base_fixed b h = true ->
  run solve pinv h ab = Some ab' -> wfc ab'.
Proof.
  induction h as [|o h IH]; cbn; intros b ab ab' T H Hb E.
  - inversion E; subst. eapply P_wfc; eauto.
  - destruct (step solve pinv o ab) as [a1|] eqn:Q; [|discriminate].
    assert (X : negb (b && moves_base o) = true /\ base_fixed (b || asks o) h = true).
    { destruct o; cbn in *; rewrite ?andb_false_r, ?orb_false_r, ?orb_true_r in *; auto.
      apply andb_true_iff in Hb. destruct Hb. destruct b; auto; discriminate. }
    destruct X as [X1 X2]. eapply IH; [|eapply P_step; eauto|exact X2|exact E]. eapply tree_step; eauto.
Qed.
Lemma reached_wfc {AC : AddComm S} h ab : reached solve pinv h ab -> base_fixed false h = true -> tree_ok ab /\ wfc ab.
Proof.
  intros R Hb. split; [eapply tree_reached; eauto|]. destruct R as (name & mem & R).
  eapply P_run; [apply (tree_new name mem)| |exact Hb|exact R].
  exists (all_clear mem). split; [reflexivity|]. intros. apply inv_all_clear.
Qed.

(** ** Results *)
Lemma cold_wfc ab mem : wfc (cold ab mem).
Proof. eexists. split; [reflexivity|]. apply inv_all_clear. Qed.
Lemma cold_tree ab mem : tree_ok ab -> tree_ok (cold ab mem).
Proof. apply tree_set_cache. Qed.

Lemma outcome_wrap {A} (f : A -> answer) (r : res (body * A)) : outcome (wrap f r) = bind (outcome r) (fun x => Ok (f x)).
Proof. destruct r as [[a x]| |]; reflexivity. Qed.
Lemma outcome_on_cache {A} ab (f : cache -> res (cache * A)) : outcome (on_cache ab f) =
  match ab_cache ab with None => UB | Some c => bind (f c) (fun '(_, x) => Ok x) end.
Proof. unfold on_cache, outcome. destruct (ab_cache ab) as [c|]; [|reflexivity]. destruct (f c) as [[c' x]| |]; reflexivity. Qed.

Section Answers.
Variable ab : body.
Hypothesis T : tree_ok ab.
Hypothesis W : wfc ab.

Lemma out_Tp i : outcome (q_T_to_parent i ab) = match idx (ab_dof ab) i with None => UB | Some i => Ok (tpv ab i) end.
Proof.
  destruct W as (c & E & V). unfold q_T_to_parent. rewrite outcome_on_cache, E.
  destruct (idx _ _) as [j|] eqn:Q; cbn; auto. rewrite (ensure_Tp_at ab c j); auto. apply idx_spec in Q; tauto.
Qed.
Lemma out_Tw i : outcome (q_T_to_world i ab) = match idx (ab_dof ab) i with None => UB | Some i => Ok (twv ab i) end.
Proof.
  destruct W as (c & E & V). unfold q_T_to_world. rewrite outcome_on_cache, E.
  destruct (idx _ _) as [j|] eqn:Q; cbn; auto. rewrite (ensure_Tw_at ab T c j); auto. apply idx_spec in Q; tauto.
Qed.
Lemma out_Pos i o : outcome (q_Position i o ab) = bind (outcome (q_T_to_world i ab)) (fun T => Ok (iso_app T o)).
Proof. unfold q_Position. destruct (q_T_to_world i ab) as [[a x]| |]; reflexivity. Qed.
Lemma out_Ori i : outcome (q_Orientation i ab) = bind (outcome (q_T_to_world i ab)) (fun T => Ok (rot T)).
Proof. unfold q_Orientation. destruct (q_T_to_world i ab) as [[a x]| |]; reflexivity. Qed.
Lemma out_Pose i o : outcome (q_CartesianPose i o ab) = bind (outcome (q_T_to_world i ab)) (fun T => Ok (Iso (rot T) (iso_app T o))).
Proof. unfold q_CartesianPose. destruct (q_T_to_world i ab) as [[a x]| |]; reflexivity. Qed.
Lemma out_Lin i o : outcome (q_LinearJacobian i o ab) = bind (outcome (q_Jacobian i o ab)) (fun J => Ok (map mlin J)).
Proof. unfold q_LinearJacobian. destruct (q_Jacobian i o ab) as [[a x]| |]; reflexivity. Qed.

Definition warm_jac : Prop := exists c, ab_cache ab = Some c /\ is_jac (ca_jac c) = true.
Lemma out_Jac i o : exists o', (o' = o \/ warm_jac /\ v3eqb o' o = true) /\
  outcome (q_Jacobian i o ab) = match idx (ab_dof ab) i with None => UB | Some l => Ok (vec (ab_dof ab) (jacv ab l o')) end.
Proof.
  destruct W as (c & E & V). unfold q_Jacobian. rewrite outcome_on_cache, E.
  destruct (idx _ _) as [l|] eqn:Q; [|exists o; auto]. apply idx_spec in Q. destruct Q as [Q _].
  destruct (ensure_jac_inv ab T l o c V Q) as (V' & o' & F & L & O & H). exists o'. split; [destruct H as [H|[]]; [tauto|right; split; [exists c|]; auto]|]. cbn. f_equal.
  apply vec_ext. intros j Hj. destruct (i_jac _ _ V' F) as [_ X]. rewrite X, L, O; auto.
Qed.
Lemma jacv_ang l o1 o2 j : mang (jacv ab l o1 j) = mang (jacv ab l o2 j).
Proof.
  unfold jacv, jac_loop.
  assert (X : forall l p1 p2 (a b : arr motion), (forall j, mang (a j) = mang (b j)) -> forall j,
    mang (fold_left (fun J i => upd J i (jac_col ab (twv ab i) p1 i)) l a j) =
    mang (fold_left (fun J i => upd J i (jac_col ab (twv ab i) p2 i)) l b j)).
  { clear. induction l as [|x l IH]; cbn; intros p1 p2 a b H; auto. apply IH.
    intros j. unfold upd. destruct (Nat.eqb j x); auto. }
  apply X. reflexivity.
Qed.
Lemma out_Ang i : outcome (q_AngularJacobian i ab) =
  match idx (ab_dof ab) i with None => UB | Some l => Ok (vec (ab_dof ab) (fun j => mang (jacv ab l v3zero j))) end.
Proof.
  unfold q_AngularJacobian. destruct W as (c & E & V) eqn:EW. rewrite E. clear EW.
  destruct (out_Jac i (j_offset (ca_jac c))) as (o' & _ & X).
  destruct (q_Jacobian i _ ab) as [[a x]| |]; cbn in *; destruct (idx _ _) as [l|]; try discriminate; auto.
  inversion X; subst. f_equal. unfold vec. rewrite map_map. apply map_ext. intros j. apply jacv_ang.
Qed.
Lemma hess_loop_cong Tw Tw' J J' l H H' : (forall i, In i l -> i < ab_dof ab) ->
  (forall i, i < ab_dof ab -> Tw i = Tw' i) -> (forall i, i < ab_dof ab -> J i = J' i) ->
  (forall i j, H i j = H' i j) ->
  forall i j, hess_loop ab Tw J l H i j = hess_loop ab Tw' J' l H' i j.
Proof.
  intros Hl HT HJ. revert H H'. induction l as [|x l IH]; cbn; auto. intros H H' HH.
  apply IH; [intros; apply Hl; right; auto|].
  destruct (is_prismatic _); auto. rewrite (HT x) by (apply Hl; left; auto).
  assert (X : forall (m : list nat) w (A B : arr2 motion), (forall k, In k m -> k < ab_dof ab) -> (forall i j, A i j = B i j) ->
     forall i j, fold_left (hess_inner J w x) m A i j = fold_left (hess_inner J' w x) m B i j).
  { clear - HJ. induction m as [|y m IH]; cbn; auto. intros w A B Hm HA. apply IH; [intros; apply Hm; auto|].
    intros i j. unfold hess_inner, upd2. rewrite (HJ y) by (apply Hm; left; auto). rewrite HA. reflexivity. }
  intros i j. apply (X (x :: l)); auto.
Qed.
Definition hessv (l : nat) (o : v3) : arr2 motion := hess_loop ab (twv ab) (jacv ab l o) (anc_at ab l) (fun _ _ => mzero).
Lemma out_Hess i o : exists o', (o' = o \/ warm_jac /\ v3eqb o' o = true) /\
  outcome (q_Hessian i o ab) = match idx (ab_dof ab) i with None => UB | Some l => Ok (mat (ab_dof ab) (ab_dof ab) (hessv l o')) end.
Proof.
  destruct W as (c & E & V). unfold q_Hessian. rewrite outcome_on_cache, E.
  destruct (idx _ _) as [l|] eqn:Q; [|exists o; auto]. apply idx_spec in Q. destruct Q as [Q _].
  destruct (ensure_jac_inv ab T l o c V Q) as (V' & o' & F & L & O & H). exists o'. split; [destruct H as [H|[]]; [tauto|right; split; [exists c|]; auto]|]. cbn. f_equal.
  apply mat_ext. intros a b Ha Hb. apply hess_loop_cong; auto.
  - intros k Hk. apply (tree_in_anc_le ab k l T Q) in Hk. lia.
  - intros k Hk. apply ensure_Tw_at; auto.
  - intros k Hk. destruct (i_jac _ _ V' F) as [_ X]. rewrite L, O in X. rewrite <- X by auto.
    destruct (sr_Tw ab (ensure_jac ab l o c)) as [t ->]. reflexivity.
Qed.

Lemma out_CC : outcome (q_CentrifugalCoriolis ab) = Ok (vec (ab_dof ab) (Cv ab)).
Proof.
  destruct W as (c & E & V). unfold q_CentrifugalCoriolis. rewrite outcome_on_cache, E. cbn. f_equal.
  destruct (ensure_cc_inv ab T c V) as [V' F]. apply vec_ext. intros i Hi. apply (i_cc _ _ V' F i Hi).
Qed.
Lemma out_Grav : outcome (q_Gravity ab) = Ok (vec (ab_dof ab) (Gv ab)).
Proof.
  destruct W as (c & E & V). unfold q_Gravity. rewrite outcome_on_cache, E. cbn. f_equal.
  destruct (ensure_grav_inv ab T c V) as [V' F]. apply vec_ext. intros i Hi. apply (i_grav _ _ V' F i Hi).
Qed.
Lemma out_Ext fe : outcome (q_ExternalTorques fe ab) = Ok (vec (ab_dof ab) (Extv ab fe)).
Proof.
  destruct W as (c & E & V). unfold q_ExternalTorques. rewrite outcome_on_cache, E.
  destruct (ext_torques_inv ab T fe c V) as (_ & X & _). destruct (ext_torques ab fe c). cbn in *. f_equal.
  apply vec_ext. auto.
Qed.
Lemma out_Inertia : outcome (q_Inertia ab) = Ok (mat (ab_dof ab) (ab_dof ab) (Av ab)).
Proof.
  destruct W as (c & E & V). unfold q_Inertia. rewrite outcome_on_cache, E. cbn. f_equal.
  destruct (ensure_crba_inv_ok ab T c V) as [V' F]. apply mat_ext. intros i j Hi Hj. apply (i_crba _ _ V' F); auto.
Qed.
Lemma out_Comp l : outcome (q_CompositeInertia l ab) = match idx (ab_dof ab) l with None => UB | Some i => Ok (Icv ab i) end.
Proof.
  destruct W as (c & E & V). unfold q_CompositeInertia. rewrite outcome_on_cache, E.
  destruct (ensure_crba_inv_ok ab T c V) as [V' F]. destruct (idx _ _) as [i|] eqn:Q; cbn; auto. f_equal.
  apply (i_crba _ _ V' F); auto. apply idx_spec in Q; tauto.
Qed.
Lemma out_Ainv b : outcome (q_InertiaInverse_solve solve b ab) =
  if Nat.eqb (List.length b) (ab_dof ab) then Ok (solve (mat (ab_dof ab) (ab_dof ab) (Av ab)) b) else UB.
Proof.
  destruct W as (c & E & V). unfold q_InertiaInverse_solve. destruct (Nat.eqb _ _); [|reflexivity]. rewrite outcome_on_cache, E. cbn. f_equal. f_equal.
  destruct (ensure_crba_inv_inv ab T c V) as [V' F]. apply mat_ext. intros i j Hi Hj. apply (i_crbai _ _ V' F); auto.
Qed.
End Answers.

Lemma pose_fresh ab q mem : tree_ok ab -> wfc ab -> pose_query q = true ->
  outcome (ask solve pinv q ab) = outcome (ask solve pinv q (cold ab mem)).
Proof.
  intros T W Q. pose proof (cold_tree ab mem T) as T'. pose proof (cold_wfc ab mem) as W'.
  destruct q; try discriminate; cbn [ask]; rewrite !outcome_wrap, ?out_Pos, ?out_Ori, ?out_Pose, ?out_Tp, ?out_Tw, ?out_Ang by auto; reflexivity.
Qed.
Lemma dynamics_fresh ab q mem : tree_ok ab -> wfc ab -> dynamics_query q = true ->
  outcome (ask solve pinv q ab) = outcome (ask solve pinv q (cold ab mem)).
Proof.
  intros T W Q. pose proof (cold_tree ab mem T) as T'. pose proof (cold_wfc ab mem) as W'.
  destruct q; try discriminate; cbn [ask]; rewrite !outcome_wrap, ?out_CC, ?out_Grav, ?out_Ext, ?out_Inertia, ?out_Comp, ?out_Ainv by auto; reflexivity.
Qed.
(** A cold robot computes with the offset it is given. *)
Lemma cold_not_warm ab mem : ~ warm_jac (cold ab mem).
Proof. intros (c & E & H). inversion E; subst. discriminate. Qed.
Lemma cold_jac ab mem i o : tree_ok ab -> outcome (q_Jacobian i o (cold ab mem)) =
  match idx (ab_dof ab) i with None => UB | Some l => Ok (vec (ab_dof ab) (jacv ab l o)) end.
Proof.
  intros T. destruct (out_Jac (cold ab mem) (cold_tree ab mem T) (cold_wfc ab mem) i o) as (o' & [->|[H _]] & E); [exact E|].
  destruct (cold_not_warm ab mem H).
Qed.
Lemma cold_hess ab mem i o : tree_ok ab -> outcome (q_Hessian i o (cold ab mem)) =
  match idx (ab_dof ab) i with None => UB | Some l => Ok (mat (ab_dof ab) (ab_dof ab) (hessv ab l o)) end.
Proof.
  intros T. destruct (out_Hess (cold ab mem) (cold_tree ab mem T) (cold_wfc ab mem) i o) as (o' & [->|[H _]] & E); [exact E|].
  destruct (cold_not_warm ab mem H).
Qed.
Lemma jacobian_fresh ab q mem : tree_ok ab -> wfc ab -> jacobian_query q = true ->
  exists o', (o' = offset_of q \/ v3eqb o' (offset_of q) = true) /\
  outcome (ask solve pinv q ab) = outcome (ask solve pinv (with_offset q o') (cold ab mem)).
Proof.
  intros T W Q.
  destruct q; try discriminate; cbn [ask with_offset offset_of].
  - destruct (out_Jac ab T W l off) as (o' & H & E). exists o'. split; [tauto|]. rewrite !outcome_wrap, E, cold_jac; auto.
  - destruct (out_Jac ab T W l off) as (o' & H & E). exists o'. split; [tauto|]. rewrite !outcome_wrap, !out_Lin, E, cold_jac; auto.
  - destruct (out_Hess ab T W l off) as (o' & H & E). exists o'. split; [tauto|]. rewrite !outcome_wrap, E, cold_hess; auto.
Qed.
Lemma v3eqb_sound {E : EqSound S} (a b : v3) : v3eqb a b = true -> a = b.
Proof.
  destruct a, b. unfold v3eqb. cbn. intros H. apply andb_true_iff in H. destruct H as [H H3]. apply andb_true_iff in H. destruct H as [H1 H2].
  apply keq_sound in H1, H2, H3. subst; auto.
Qed.

Lemma c03_pose {AC : AddComm S} h ab mem q : reached solve pinv h ab -> base_fixed false h = true -> pose_query q = true ->
  outcome (ask solve pinv q ab) = outcome (ask solve pinv q (cold ab mem)).
Proof. intros R B Q. destruct (reached_wfc h ab R B). apply pose_fresh; auto. Qed.
Lemma c03_jac {AC : AddComm S} h ab mem q : reached solve pinv h ab -> base_fixed false h = true -> jacobian_query q = true ->
  exists o', (o' = offset_of q \/ v3eqb o' (offset_of q) = true) /\
  outcome (ask solve pinv q ab) = outcome (ask solve pinv (with_offset q o') (cold ab mem)).
Proof. intros R B Q. destruct (reached_wfc h ab R B). apply jacobian_fresh; auto. Qed.
Lemma c03_jac_exact {AC : AddComm S} {E : EqSound S} h ab mem q : reached solve pinv h ab -> base_fixed false h = true -> jacobian_query q = true ->
  outcome (ask solve pinv q ab) = outcome (ask solve pinv q (cold ab mem)).
Proof.
  intros R B Q. destruct (c03_jac h ab mem q R B Q) as (o' & H & X). rewrite X.
  assert (o' = offset_of q) as -> by (destruct H; auto; apply v3eqb_sound; auto).
  assert (with_offset q (offset_of q) = q) as -> by (destruct q; try discriminate Q; reflexivity). reflexivity.
Qed.
Lemma c04 {AC : AddComm S} h ab mem q : reached solve pinv h ab -> base_fixed false h = true -> dynamics_query q = true ->
  outcome (ask solve pinv q ab) = outcome (ask solve pinv q (cold ab mem)).
Proof. intros R B Q. destruct (reached_wfc h ab R B). apply dynamics_fresh; auto. Qed.
End CacheOps.

#[global] Instance F64_comm sn cs tr : AddComm (F64of sn cs tr).
Proof.
  constructor. cbn. intros x y. unfold SFadd.
  destruct x as [[]|[]| |s m e], y as [[]|[]| |s' m' e']; cbn; auto.
  rewrite Z.min_comm. rewrite Z.add_comm. reflexivity.
Qed.
#[global] Instance laws_comm {S} {L : ScalLaws S} : AddComm S.
Proof. constructor. destruct L as [[[]]]. auto. Qed.
