(** Operational-space queries after any history. *)
From Coq Require Import List Arith ZArith Bool Lia.
From Verif Require Import Scalar Base Spatial SpecGeo Joint Body Kin InvDyn FwdDyn Opspace OpspaceAba Deriv Sim Ops Specs SpecCache SpecKin SpecDyn SpecOps SpatialProofs TreeProofs CacheProofs CacheOps OpsCache.
Import ListNotations.

Section OpsApi.
Context {S : Scal}.
Variable solve : list (list K) -> list K -> list K.
Variable pinv : list (list K) -> K -> list (list K) * bool.
Context {AC : AddComm S} {ES : EqSound S}.

Section One.
Variable one : option K.
Notation wop := (wop solve pinv one).

Lemma wop_set_q q ab ab' : wop ab -> set_q q ab = Ret ab' tt -> wop ab'.
Proof.
  intros (c & E & A). unfold set_q. destruct (negb _); [discriminate|]. destruct (negb _); [discriminate|].
  destruct (veqb _ _); intros H; inversion H; subst; [exists c; auto|]. unfold OpsCache.wop. cbn. rewrite E. eexists. split; [reflexivity|].
  apply opi_off; reflexivity.
Qed.
Lemma wop_set_dq q ab ab' : wop ab -> set_dq q ab = Ret ab' tt -> wop ab'.
Proof.
  intros (c & E & A). unfold set_dq. destruct (negb _); [discriminate|]. destruct (negb _); [discriminate|].
  destruct (veqb _ _); intros H; inversion H; subst; [exists c; auto|]. unfold OpsCache.wop. cbn. rewrite E. eexists. split; [reflexivity|].
  eapply opi_mass; [|exact A]. repeat split.
Qed.
Lemma wop_put io q dq ab ab' : wop ab -> put io q dq ab = Ok ab' -> wop ab'.
Proof.
  intros W E. apply put_inv in E. destruct E as (q' & ab1 & dq' & E1 & E2).
  eapply wop_set_dq; [|exact E2]. eapply wop_set_q; eauto.
Qed.
Lemma wop_sim_fd aba tau fe o ab ab' x : tree_ok ab -> wfc ab -> wop ab -> sim_fd solve aba tau fe o ab = Ok (ab', x) -> wop ab'.
Proof.
  intros T WC W. unfold sim_fd. destruct aba; intros E.
  - eapply (ask_op solve pinv one (QAba tau fe o) ab ab' (AVec x)); auto; [intros y []|]. cbn. rewrite E. reflexivity.
  - eapply (ask_op solve pinv one (QFD tau fe o) ab ab' (AVec x)); auto; [intros y []|]. cbn. rewrite E. reflexivity.
Qed.
Lemma wop_step o ab ab' : tree_ok ab -> wfc ab -> wop ab -> oone one o -> step solve pinv o ab = Some ab' -> wop ab'.
Proof.
  intros T WC W NL E. pose proof W as (c & Ec & A). destruct o; cbn [step] in *.
  - destruct (add_rigid_body rb p ab) as [a1 id|a1|] eqn:Q; cbn in E; inversion E; subst; [|apply add_exn in Q; subst; auto].
    unfold add_rigid_body in Q. destruct (_ || _)%Z; [discriminate|]. inversion Q; subst; clear Q.
    unfold OpsCache.wop. cbn. rewrite Ec. eexists. split; [reflexivity|]. apply opi_off; reflexivity.
  - destruct (set_q q ab) as [a1 []|a1|] eqn:Q; cbn in E; inversion E; subst; [|apply set_q_exn in Q; subst; auto].
    eapply wop_set_q; eauto.
  - destruct (set_dq dq ab) as [a1 []|a1|] eqn:Q; cbn in E; inversion E; subst; [|apply set_dq_exn in Q; subst; auto].
    eapply wop_set_dq; eauto.
  - cbn in E. inversion E; subst; clear E. unfold OpsCache.wop. cbn. rewrite Ec. eexists. split; [reflexivity|].
    eapply opi_mass; [|exact A]. repeat split.
  - unfold add_load, set_loads in E. rewrite Ec in E. cbn in E; inversion E; subst; clear E. eexists. split; [reflexivity|]. apply opi_off; reflexivity.
  - unfold replace_load, set_loads in E. rewrite Ec in E. cbn in E; inversion E; subst; clear E. eexists. split; [reflexivity|]. apply opi_off; reflexivity.
  - unfold clear_load, set_loads in E. rewrite Ec in E. cbn in E; inversion E; subst; clear E. eexists. split; [reflexivity|]. apply opi_off; reflexivity.
  - cbn in E. inversion E; subst; clear E. exists c. split; [exact Ec|]. eapply opi_mass; [|exact A]. repeat split.
  - destruct (set_inertia_base I ab) as [a1 []|a1|] eqn:Q; cbn in E; inversion E; subst; [|apply set_inertia_base_exn in Q; subst; auto].
    unfold set_inertia_base in Q. destruct (klt _ _); [discriminate|]. inversion Q; subst; clear Q.
    exists c. split; [auto|]. eapply opi_mass; [|exact A]. repeat split.
  - unfold body_copy in E. rewrite Ec in E. inversion E; subst; clear E.
    exists c. split; [auto|]. eapply opi_mass; [|exact A]. repeat split.
  - destruct (integrate _ _ _ _) as [a1| |] eqn:Q; inversion E; subst; clear E.
    assert (X : tree_ok ab' /\ wfc ab' /\ wop ab').
    { eapply (integrate_ind (fun a => tree_ok a /\ wfc a /\ wop a)); [| |split; [exact T|split; [exact WC|exact W]]|exact Q].
      - intros a a' x (Ta & Wa & Oa) F. split; [|split; [eapply sim_fd_inv; eauto|eapply wop_sim_fd; eauto]].
        apply (sim_fd_frame solve pinv) in F. destruct F as [c' ->]. apply tree_set_cache; auto.
      - intros a a' x y (Ta & Wa & Oa) F. split; [eapply tree_put; eauto|]. split; [eapply inv_put; eauto|eapply wop_put; eauto]. }
    apply X.
  - destruct (ask solve pinv q ab) as [[a1 x]| |] eqn:Q; inversion E; subst; clear E.
    + eapply ask_op; eauto.
    + destruct q; try (inversion H0; subst; exact W).
      destruct (q_ops_InverseDynamics _ _ _ _ _ _ _ _ _) as [[a1 y]| |] eqn:Q2; inversion H0; subst; clear H0.
      eapply (ask_op solve pinv one (QoID _ ddx None fe fe_empty _) ab ab'); [exact T|exact WC|exact W| |].
      2:{ cbn. rewrite Q2. cbn. reflexivity. }
      cbn. intros y0 [<-|[]]. apply NL. cbn. auto.
Qed.
Lemma wop_run h : forall b ab ab', tree_ok ab -> P b ab -> wop ab -> Forall (oone one) h -> base_fixed b h = true ->
  run solve pinv h ab = Some ab' -> wop ab'.
Proof.
  induction h as [|o h IH]; cbn; intros b ab ab' T H W M Hb E.
  - inversion E; subst. auto.
  - destruct (step solve pinv o ab) as [a1|] eqn:Q; [|discriminate].
    assert (X : negb (b && moves_base o) = true /\ base_fixed (b || asks o) h = true).
    { destruct o; cbn in *; rewrite ?andb_false_r, ?orb_false_r, ?orb_true_r in *; auto.
      apply andb_true_iff in Hb. destruct Hb. destruct b; auto; discriminate. }
    destruct X as [X1 X2]. inversion M as [|? ? M1 M2]; subst.
    eapply (IH _ a1); [eapply tree_step; eauto|eapply P_step; eauto| |exact M2|exact X2|exact E].
    eapply wop_step; [exact T|eapply P_wfc; eauto|exact W|exact M1|exact Q].
Qed.
Lemma reached_wop h ab : reached solve pinv h ab -> base_fixed false h = true -> Forall (oone one) h -> wop ab.
Proof.
  intros (name & mem & R) Hb U. eapply wop_run; [apply (tree_new name mem)| | |exact U|exact Hb|exact R].
  - exists (all_clear mem). split; [reflexivity|]. intros. apply inv_all_clear.
  - exists (all_clear mem). split; [reflexivity|]. apply opi_off; reflexivity.
Qed.
End One.
Lemma oone_none h : Forall (oone None) h.
Proof. apply Forall_forall. intros o _. destruct o; cbn; auto. discriminate. Qed.
Lemma oone_some e h : one_threshold e h -> Forall (oone (Some e)) h.
Proof.
  intros H. apply Forall_forall. intros o Ho. destruct o; cbn; auto. intros x Hx e' He'. inversion He'; subst. eapply H; eauto.
Qed.

(** ** Answers *)
Section Answers.
Variable ab : body.
Hypothesis T : tree_ok ab.
Hypothesis W : wfc ab.
Definition sh (J : lmat) : bool := shape (List.length J) (ab_dof ab) J.
Lemma out_with_J {A} J (f : cache -> res (cache * A)) (r : res A) :
  (forall c, ab_cache ab = Some c -> inv ab c -> outcome (bind (f c) (fun '(c, x) => Ok (set_cache ab (Some c), x))) = r) ->
  outcome (with_J J ab f) = if sh J then r else UB.
Proof.
  intros H. unfold with_J. fold (sh J). destruct (sh J); [|reflexivity]. destruct W as (c & E & V). rewrite outcome_on_cache, E. rewrite <- (H c E V).
  destruct (f c) as [[c' y]| |]; reflexivity.
Qed.
Section Any.
Hypothesis O : wop solve pinv None ab.
Lemma get_opi one c : wop solve pinv one ab -> ab_cache ab = Some c -> opi solve pinv one ab (ca_op c).
Proof. intros (c' & E & H) E'. replace c with c' by congruence. auto. Qed.
Lemma out_oLinv J : outcome (q_ops_InertiaInverse solve J ab) = if sh J then Ok (linvv solve ab J) else UB.
Proof.
  apply out_with_J. intros c E V. pose proof (get_opi _ _ O E) as Oc. cbn. f_equal. destruct (linv_ok solve pinv ab T None J c V Oc) as (A & B & C).
  destruct (oi_inv _ _ _ _ _ A B) as [_ ->]. rewrite C. auto.
Qed.
Lemma out_oLam J e : outcome (q_ops_Inertia solve pinv J e ab) = if sh J then Ok (lamv solve pinv ab J e) else UB.
Proof.
  apply out_with_J. intros c E V. pose proof (get_opi _ _ O E) as Oc. cbn. f_equal. apply (lam_ok solve pinv ab T None J e c V Oc).
Qed.
Lemma out_oSing J e : outcome (q_ops_IsSingular solve pinv J e ab) = if sh J then Ok (snd (pinv (linvv solve ab J) e)) else UB.
Proof.
  apply out_with_J. intros c E V. pose proof (get_opi _ _ O E) as Oc. cbn. f_equal. apply (lam_ok solve pinv ab T None J e c V Oc).
Qed.
End Any.
Section Thr.
Variable e : K.
Hypothesis O : wop solve pinv (Some e) ab.
Lemma fits_e : fits (Some e) e. Proof. intros e' H. congruence. Qed.
Lemma out_oJb J : outcome (q_ops_JacobianDynamicInverse solve pinv J e ab) = if sh J then Ok (jbv solve pinv ab J e) else UB.
Proof.
  apply out_with_J. intros c E V. pose proof (get_opi _ _ O E) as Oc. cbn. f_equal. apply (jb_ok solve pinv ab T (Some e) J e c eq_refl V Oc).
Qed.
Lemma out_oCC J l : outcome (q_ops_CentrifugalCoriolis solve pinv J l e ab) =
  if sh J then if Nat.eqb (List.length J) 6 then match idx (ab_dof ab) l with None => UB | Some i => Ok (occv solve pinv ab J i e) end else Throw else UB.
Proof.
  apply out_with_J. intros c E V. pose proof (get_opi _ _ O E) as Oc. pose proof (occ_ok solve pinv ab T (Some e) J l e c fits_e V Oc) as X.
  destruct (ops_cc _ _ _ _ _ _ _) as [[c' x]| |]; cbn.
  - destruct X as (_ & _ & X & ->). destruct (X eq_refl) as (i & -> & ->). reflexivity.
  - apply Nat.eqb_neq in X. rewrite X. reflexivity.
  - destruct X as [-> ->]. reflexivity.
Qed.
Lemma out_oGrav J : outcome (q_ops_Gravity solve pinv J e ab) = if sh J then Ok (jbt solve pinv ab J e (vec (ab_dof ab) (Gv ab))) else UB.
Proof.
  apply out_with_J. intros c E V. pose proof (get_opi _ _ O E) as Oc. pose proof (ograv_ok solve pinv ab T (Some e) J e c fits_e V Oc) as X.
  destruct (ops_gravity _ _ _ _ _ _) as [c' x]. cbn. destruct X as (_ & _ & X). rewrite X; auto.
Qed.
Lemma out_oExt J fe : outcome (q_ops_ExternalForces solve pinv J fe e ab) = if sh J then Ok (jbt solve pinv ab J e (vec (ab_dof ab) (Extv ab fe))) else UB.
Proof.
  apply out_with_J. intros c E V. pose proof (get_opi _ _ O E) as Oc. pose proof (oext_ok solve pinv ab T (Some e) J fe e c fits_e V Oc) as X.
  destruct (ops_external _ _ _ _ _ _ _) as [c' x]. cbn. destruct X as (_ & _ & X). rewrite X; auto.
Qed.
Lemma out_oFric J tau st : outcome (q_ops_Friction solve pinv J tau e st ab) =
  if Nat.ltb (List.length tau) (ab_dof ab) then UB else
  if sh J then Ok (jbt solve pinv ab J e (vec (ab_dof ab) (friction_arr ab (qk tau) (negb (keq st k0)) (klit 1 100)))) else UB.
Proof.
  unfold q_ops_Friction. destruct (Nat.ltb _ _); [reflexivity|].
  apply out_with_J. intros c E V. pose proof (get_opi _ _ O E) as Oc. pose proof (ofric_ok solve pinv ab T (Some e) J tau e st c fits_e V Oc) as X.
  destruct (ops_friction _ _ _ _ _ _ _ _) as [c' x]. cbn. destruct X as (_ & _ & X). rewrite X; auto.
Qed.
Definition oid_pre (J : lmat) (ddx : list K) (N : option lmat) : bool :=
  Nat.eqb (List.length ddx) (List.length J) && match N with Some ((_ :: _) as M) => shape (ab_dof ab) (ab_dof ab) M | _ => true end && sh J.
Lemma out_oID J ddx N fe b o : p_svd o = e -> (p_cc o = true -> e = k0) -> outcome (q_ops_InverseDynamics solve pinv J ddx N fe b o ab) =
  if oid_pre J ddx N then oid_val solve pinv ab J ddx N fe b o else UB.
Proof.
  intros He Hc.
  assert (X : outcome (with_J J ab (ops_inverse_dynamics solve pinv ab J ddx N fe b o)) = if sh J then oid_val solve pinv ab J ddx N fe b o else UB).
  { apply out_with_J. intros c E V. pose proof (get_opi _ _ O E) as Oc. pose proof (oid_ok solve pinv ab T (Some e) J ddx N fe b o c) as X. rewrite He in X.
    specialize (X fits_e). assert (F0 : p_cc o = true -> fits (Some e) k0) by (intros H; rewrite <- (Hc H); apply fits_e). specialize (X F0 V Oc).
    destruct (ops_inverse_dynamics _ _ _ _ _ _ _ _ _ _) as [[c' x]| |]; cbn; [destruct X as [_ X]|..]; rewrite X; auto. }
  unfold q_ops_InverseDynamics, oid_pre. destruct (Nat.eqb _ _); cbn [negb andb]; [|reflexivity].
  destruct N as [[|r M]|]; cbn [andb]; auto. destruct (shape _ _ (r :: M)); auto.
Qed.
End Thr.
End Answers.
Lemma cold_wop ab mem one : wop solve pinv one (cold ab mem).
Proof. eexists. split; [reflexivity|]. apply opi_off; reflexivity. Qed.

Lemma c37_any h ab mem q : reached solve pinv h ab -> base_fixed false h = true -> task_query q = true -> thresholds q = nil ->
  outcome (ask solve pinv q ab) = outcome (ask solve pinv q (cold ab mem)).
Proof.
  intros R B Q Th. destruct (reached_wfc solve pinv h ab R B) as [T W]. pose proof (reached_wop None h ab R B (oone_none h)) as O.
  pose proof (cold_tree ab mem T) as T'. pose proof (cold_wfc ab mem) as W'. pose proof (cold_wop ab mem None) as O'.
  destruct q; try discriminate; cbn [ask]; rewrite !outcome_wrap, ?out_oLinv, ?out_oLam, ?out_oSing by auto; reflexivity.
Qed.
Lemma c37_one e h ab mem q : reached solve pinv h ab -> base_fixed false h = true -> one_threshold e h -> task_query q = true ->
  (forall x, In x (thresholds q) -> x = e) -> outcome (ask solve pinv q ab) = outcome (ask solve pinv q (cold ab mem)).
Proof.
  intros R B OT Q Th. destruct (thresholds q) eqn:ET; [apply (c37_any h); auto|]. rewrite <- ET in Th.
  destruct (reached_wfc solve pinv h ab R B) as [T W]. pose proof (reached_wop (Some e) h ab R B (oone_some e h OT)) as O.
  pose proof (cold_tree ab mem T) as T'. pose proof (cold_wfc ab mem) as W'. pose proof (cold_wop ab mem (Some e)) as O'.
  destruct q; try discriminate; cbn [thresholds] in Th; cbn [ask]; rewrite !outcome_wrap.
  1-5: assert (eps = e) as -> by (apply Th; left; auto); rewrite ?(out_oJb _ T W), ?(out_oCC _ T W), ?(out_oGrav _ T W), ?(out_oExt _ T W), ?(out_oFric _ T W),
    ?(out_oJb _ T' W'), ?(out_oCC _ T' W'), ?(out_oGrav _ T' W'), ?(out_oExt _ T' W'), ?(out_oFric _ T' W') by auto; reflexivity.
  assert (He : p_svd o = e) by (apply Th; left; auto). assert (Hc : p_cc o = true -> e = k0) by (intros H; rewrite H in Th; symmetry; apply Th; right; left; auto).
  rewrite (out_oID ab T W e O), (out_oID _ T' W' e O') by auto. reflexivity.
Qed.
End OpsApi.
