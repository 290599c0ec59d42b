(** The articulated-body cache along a history. *)
From Coq Require Import List Arith ZArith Bool Lia.
From Verif Require Import Scalar Base Spatial SpecGeo Joint Body Kin InvDyn FwdDyn Opspace OpspaceAba Deriv Sim Ops Specs SpecCache SpecKin SpecDyn SpecAba SpatialProofs TreeProofs CacheProofs CacheOps WorldProofs AbaProofs AinvProofs AbaOps DynApi.
Import ListNotations.

Section AbaCache.
Context {S : Scal}.
Variable solve : list (list K) -> list K -> list K.
Variable pinv : list (list K) -> K -> list (list K) * bool.

Lemma aba_ok_off ab c : is_aba (ca_aba c) = false -> is_Ainv (ca_aba c) = false -> aba_ok ab c.
Proof. intros H1 H2. split; intros H; congruence. Qed.
Lemma aba_ok_off1 ab c c' : is_aba (ca_aba c') = false -> is_Ainv (ca_aba c') = is_Ainv (ca_aba c) -> c_Ainv (ca_aba c') = c_Ainv (ca_aba c) ->
  aba_ok ab c -> aba_ok ab c'.
Proof. intros H1 H2 H3 [A1 A2]. split; [intros H; congruence|]. unfold invi in *. rewrite H2, H3. exact A2. Qed.
Definition waba (ab : body) : Prop := exists c, ab_cache ab = Some c /\ aba_ok ab c.
Lemma wfa_split ab : wfa ab <-> wfc ab /\ waba ab.
Proof.
  split.
  - intros (c & E & V & A). split; exists c; auto.
  - intros [(c & E & V) (c' & E' & A)]. exists c. split; auto. split; auto. congruence.
Qed.
Lemma waba_set_q q ab ab' : waba ab -> set_q q ab = Ret ab' tt -> waba ab'.
Proof.
  intros (c & E & A). unfold set_q. destruct (negb _); [discriminate|]. destruct (negb _); [discriminate|].
  destruct (veqb _ _); intros H; inversion H; subst; [exists c; auto|]. unfold waba. cbn. rewrite E. eexists. split; [reflexivity|].
  apply aba_ok_off; reflexivity.
Qed.
Lemma waba_set_dq q ab ab' : waba ab -> set_dq q ab = Ret ab' tt -> waba ab'.
Proof.
  intros (c & E & A). unfold set_dq. destruct (negb _); [discriminate|]. destruct (negb _); [discriminate|].
  destruct (veqb _ _); intros H; inversion H; subst; [exists c; auto|]. unfold waba. cbn. rewrite E. eexists. split; [reflexivity|].
  eapply (aba_ok_off1 _ c); try reflexivity. eapply aba_ok_mass; [|exact A]. repeat split.
Qed.
Lemma waba_put io q dq ab ab' : waba ab -> put io q dq ab = Ok ab' -> waba ab'.
Proof.
  intros W E. apply put_inv in E. destruct E as (q' & ab1 & dq' & E1 & E2).
  eapply waba_set_dq; [|exact E2]. eapply waba_set_q; eauto.
Qed.
Lemma sim_fd_aba {AC : AddComm S} aba tau fe o ab ab' x : tree_ok ab -> wfa ab -> sim_fd solve aba tau fe o ab = Ok (ab', x) -> wfa ab'.
Proof.
  intros T W. unfold sim_fd. destruct aba; intros E.
  - eapply (ask_aba solve pinv (QAba tau fe o) ab ab' (AVec x)); auto; [discriminate|]. cbn. rewrite E. reflexivity.
  - eapply (ask_aba solve pinv (QFD tau fe o) ab ab' (AVec x)); auto; [discriminate|]. cbn. rewrite E. reflexivity.
Qed.
Lemma waba_step {AC : AddComm S} o ab ab' : tree_ok ab -> wfa ab -> (opspace_aba o = true -> noload ab) ->
  step solve pinv o ab = Some ab' -> waba ab'.
Proof.
  intros T W NL E. pose proof W as W0. apply wfa_split in W0. destruct W0 as [WC (c & Ec & A)].
  assert (W1 : waba ab) by (exists c; auto). destruct o; cbn [step] in *.
  - destruct (add_rigid_body rb p ab) as [a1 id|a1|] eqn:Q; cbn in E; inversion E; subst; [|apply add_exn in Q; subst; auto].
    unfold add_rigid_body in Q. destruct (_ || _)%Z; [discriminate|]. inversion Q; subst; clear Q.
    unfold waba. cbn. rewrite Ec. eexists. split; [reflexivity|]. apply aba_ok_off; reflexivity.
  - destruct (set_q q ab) as [a1 []|a1|] eqn:Q; cbn in E; inversion E; subst; [|apply set_q_exn in Q; subst; auto].
    eapply waba_set_q; eauto.
  - destruct (set_dq dq ab) as [a1 []|a1|] eqn:Q; cbn in E; inversion E; subst; [|apply set_dq_exn in Q; subst; auto].
    eapply waba_set_dq; eauto.
  - cbn in E. inversion E; subst; clear E. unfold waba. cbn. rewrite Ec. eexists. split; [reflexivity|].
    eapply (aba_ok_off1 _ c); try reflexivity. eapply aba_ok_mass; [|exact A]. repeat split.
  - unfold add_load, set_loads in E. rewrite Ec in E. cbn in E; inversion E; subst; clear E. eexists. split; [reflexivity|]. apply aba_ok_off; reflexivity.
  - unfold replace_load, set_loads in E. rewrite Ec in E. cbn in E; inversion E; subst; clear E. eexists. split; [reflexivity|]. apply aba_ok_off; reflexivity.
  - unfold clear_load, set_loads in E. rewrite Ec in E. cbn in E; inversion E; subst; clear E. eexists. split; [reflexivity|]. apply aba_ok_off; reflexivity.
  - cbn in E. inversion E; subst; clear E. exists c. split; [exact Ec|]. eapply aba_ok_mass; [|exact A]. repeat split.
  - destruct (set_inertia_base I ab) as [a1 []|a1|] eqn:Q; cbn in E; inversion E; subst; [|apply set_inertia_base_exn in Q; subst; auto].
    unfold set_inertia_base in Q. destruct (klt _ _); [discriminate|]. inversion Q; subst; clear Q.
    exists c. split; [auto|]. eapply aba_ok_mass; [|exact A]. repeat split.
  - unfold body_copy in E. rewrite Ec in E. inversion E; subst; clear E.
    exists c. split; [auto|]. eapply aba_ok_mass; [|exact A]. repeat split.
  - destruct (integrate _ _ _ _) as [a1| |] eqn:Q; inversion E; subst; clear E.
    assert (X : tree_ok ab' /\ wfa ab').
    { eapply (integrate_ind (fun a => tree_ok a /\ wfa a)); [| |split; [exact T|exact W]|exact Q].
      - intros a a' x [Ta Wa] F. split; [|eapply sim_fd_aba; eauto].
        apply (sim_fd_frame solve pinv) in F. destruct F as [c' ->]. apply tree_set_cache; auto.
      - intros a a' x y [Ta Wa] F. split; [eapply tree_put; eauto|]. apply wfa_split in Wa. destruct Wa as [Wc Wa]. apply wfa_split.
        split; [eapply inv_put; eauto|eapply waba_put; eauto]. }
    apply wfa_split. apply X.
  - destruct (ask solve pinv q ab) as [[a1 x]| |] eqn:Q; inversion E; subst; clear E.
    + apply wfa_split. eapply ask_aba; eauto.
    + destruct q; try (inversion H0; subst; exact W1).
      destruct (q_ops_InverseDynamics _ _ _ _ _ _ _ _ _) as [[a1 y]| |] eqn:Q2; inversion H0; subst; clear H0.
      apply wfa_split. eapply (ask_aba solve pinv (QoID _ ddx None fe fe_empty _) ab ab'); [exact T|exact W|discriminate|]. cbn. rewrite Q2. cbn. reflexivity.
Qed.
Lemma noload_step o ab ab' : load_op o = false -> noload ab -> step solve pinv o ab = Some ab' -> noload ab'.
Proof.
  intros L N E k. apply step_env in E. destruct E as (_ & _ & ->). destruct o; auto; try discriminate.
  unfold map_set. destruct (_ =? _)%Z; auto.
Qed.

Lemma aba_run {AC : AddComm S} (mode : bool) h : forall b ab ab', tree_ok ab -> P b ab -> waba ab -> (mode = false -> noload ab) ->
  forallb (fun o => negb (if mode then opspace_aba o else load_op o)) h = true -> base_fixed b h = true ->
  run solve pinv h ab = Some ab' -> wfa ab'.
Proof.
  induction h as [|o h IH]; cbn; intros b ab ab' T H W NL M Hb E.
  - inversion E; subst. apply wfa_split. split; auto. eapply P_wfc; eauto.
  - destruct (step solve pinv o ab) as [a1|] eqn:Q; [|discriminate].
    assert (X : negb (b && moves_base o) = true /\ base_fixed (b || asks o) h = true).
    { destruct o; cbn in *; rewrite ?andb_false_r, ?orb_false_r, ?orb_true_r in *; auto.
      apply andb_true_iff in Hb. destruct Hb. destruct b; auto; discriminate. }
    destruct X as [X1 X2]. apply andb_true_iff in M. destruct M as [M1 M2]. apply negb_true_iff in M1.
    eapply (IH _ a1); [eapply tree_step; eauto|eapply P_step; eauto| | |exact M2|exact X2|exact E].
    + eapply waba_step; [exact T| | |exact Q].
      * apply wfa_split. split; auto. eapply P_wfc; eauto.
      * intros O. destruct mode; [congruence|auto].
    + intros ->. eapply noload_step; eauto.
Qed.
Lemma reached_wfa {AC : AddComm S} h ab : reached solve pinv h ab -> base_fixed false h = true -> unmixed h = true ->
  tree_ok ab /\ wfa ab.
Proof.
  intros R Hb U. split; [eapply tree_reached; eauto|]. destruct R as (name & mem & R).
  apply orb_true_iff in U.
  assert (X : exists mode : bool, forallb (fun o => negb (if mode then opspace_aba o else load_op o)) h = true)
    by (destruct U; [exists true|exists false]; auto). destruct X as [mode X].
  eapply (aba_run mode); [apply (tree_new name mem)| | | |exact X|exact Hb|exact R].
  - exists (all_clear mem). split; [reflexivity|]. intros. apply inv_all_clear.
  - exists (all_clear mem). split; [reflexivity|]. apply aba_ok_off; reflexivity.
  - intros _ k. reflexivity.
Qed.

(** ** Answers *)
Lemma out_aba ab tau fe o : tree_ok ab -> wfa ab -> List.length tau = ab_dof ab ->
  outcome (ask solve pinv (QAba tau fe o) ab) = Ok (AVec (vec (ab_dof ab) (fun i => snd (abav ab tau fe o i)))).
Proof.
  intros T (c & E & V & A1 & A2) Hl. cbn [ask]. rewrite outcome_wrap. unfold q_ForwardDynamicsAba. rewrite Hl, Nat.eqb_refl, outcome_on_cache, E.
  destruct (aba_value ab T tau fe o c V A1) as [_ X]. destruct (forward_dynamics_aba ab tau fe o c). cbn in *. f_equal. f_equal.
  apply vec_ext. auto.
Qed.
Lemma out_ainv ab : tree_ok ab -> wfa ab -> exists M,
  outcome (ask solve pinv QAinvAba ab) = Ok (AMat (mat (ab_dof ab) (ab_dof ab) M)) /\
  forall i j, i < ab_dof ab -> j < ab_dof ab -> ancb ab i j = true -> M i j = ainvv ab i j /\ M j i = ainvv ab i j.
Proof.
  intros T (c & E & V & A1 & A2). exists (c_Ainv (ca_aba (ensure_Ainv ab c))). cbn [ask]. rewrite outcome_wrap.
  unfold q_InertiaInverseAba. rewrite outcome_on_cache, E. cbn. split; [reflexivity|].
  destruct (ensure_Ainv_value ab T c V A1) as (_ & X2 & X3 & _). exact (X2 A2 X3).
Qed.
Lemma cold_wfa ab mem : wfa (cold ab mem).
Proof. apply wfa_split. split; [apply cold_wfc|]. eexists. split; [reflexivity|]. apply aba_ok_off; reflexivity. Qed.
Lemma aba_fresh {AC : AddComm S} h ab mem tau fe o : reached solve pinv h ab -> base_fixed false h = true -> unmixed h = true ->
  outcome (ask solve pinv (QAba tau fe o) ab) = outcome (ask solve pinv (QAba tau fe o) (cold ab mem)).
Proof.
  intros R B U. destruct (reached_wfa h ab R B U) as [T W].
  destruct (Nat.eq_dec (List.length tau) (ab_dof ab)) as [Hl|Hl].
  - rewrite !out_aba; auto; [apply cold_tree; auto|apply cold_wfa].
  - cbn. unfold q_ForwardDynamicsAba. cbn [cold set_cache ab_dof]. apply Nat.eqb_neq in Hl. rewrite Hl. reflexivity.
Qed.
End AbaCache.
