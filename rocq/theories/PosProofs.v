(** InverseDynamicsPositionDerivative. *)
From Coq Require Import List Arith ZArith Bool Lia Ring Field Reals.
From Verif Require Import Scalar Base Spatial SpecGeo Joint Body Kin InvDyn FwdDyn Opspace OpspaceAba Deriv Sim Ops Instances Specs SpecCache SpecKin SpecDyn SpecReal SpatialTac SpatialProofs TreeProofs CacheProofs CacheOps JointProofs BigSum KinProofs WorldProofs DynProofs DynApi VelProofs RealCalc RealDyn RealMotion RealEnergy HessProofs.
Import ListNotations.

Section Undefined.
Context {S : Scal}.
Variable solve : list (list K) -> list K -> list K.
Variable pinv : list (list K) -> K -> list (list K) * bool.
Lemma c41_undef h ab i p ddq fe o : reached solve pinv h ab -> i < ab_dof ab -> par ab i = Some p ->
  outcome (ask solve pinv (QPosD ddq fe o) ab) = UB.
Proof.
  intros R Hi P. pose proof (tree_reached _ _ _ _ R) as T. destruct (tk_cache _ T) as [c C]. cbn [ask]. rewrite outcome_wrap.
  unfold q_PositionDerivative. destruct (Nat.eqb _ _); [|reflexivity]. rewrite outcome_on_cache, C.
  assert (X : has_child ab = true).
  { apply existsb_exists. exists i. split; [apply in_seq; lia|]. rewrite P. reflexivity. }
  pose proof (tree_par _ _ _ T Hi P). rewrite X. destruct (Nat.eqb_spec (ab_dof ab) 1); [lia|]. reflexivity.
Qed.
End Undefined.

Section Roots.
Context {S : Scal} {L : ScalLaws S}.
Add Field kf : (@kfield S L).
Local Open Scope k_scope.
Lemma back_root ab f i : tree_ok ab -> rigid_robot ab -> (forall k, (k < ab_dof ab)%nat -> par ab k = None) -> (i < ab_dof ab)%nat ->
  back ab f i = mdot (sub_at ab i) (f i).
Proof.
  intros T R N Hi. rewrite (back_world ab T R) by auto. 
  rewrite (ksum_ext _ _ (fun k => if Nat.eqb k i then mdot (Sw ab i) (fact (twv ab k) (f k)) else 0)).
  - rewrite (ksum_single (ab_dof ab) i (fun k => mdot (Sw ab i) (fact (twv ab k) (f k)))) by auto. unfold Sw. apply mdot_act. apply (twv_rigid ab i R T Hi).
  - intros k Hk. rewrite (ancb_step ab T) by auto. rewrite N by auto. rewrite Nat.eqb_sym. reflexivity.
Qed.
(** The matrix, for a robot without child links. *)
Definition pd_roots (ab : body) (o : id_opts) (i j : nat) : K :=
  if Nat.eqb i j && o_grav o then - mdot (sub_at ab i) (imul (inertia_at ab i) (mcross (mact (iso_inv (twv ab i)) (ab_g ab)) (sub_at ab i))) else 0.
Lemma imul_neg J (m : motion) : imul J (msub mzero m) = fopp (imul J m).
Proof. rewrite <- imul_opp. f_equal. vring. Qed.
Lemma out_PosD ab ddq fe o : tree_ok ab -> wfc ab -> (forall k, (k < ab_dof ab)%nat -> par ab k = None) -> List.length ddq = ab_dof ab ->
  outcome (q_PositionDerivative ddq fe o ab) = Ok (mat (ab_dof ab) (ab_dof ab) (pd_roots ab o)).
Proof.
  intros T (c & E & V) N Hl. unfold q_PositionDerivative. rewrite Hl, Nat.eqb_refl, outcome_on_cache, E.
  assert (X : has_child ab = false).
  { destruct (has_child ab) eqn:H; auto. apply existsb_exists in H. destruct H as (k & H1 & H2). apply in_seq in H1. rewrite N in H2 by lia. discriminate. }
  rewrite X. cbn [andb bind snd]. f_equal. apply mat_ext. intros i j Hi Hj. unfold pd_roots. 
  assert (W : o_grav o = true -> c_Tw (ca_T (if o_grav o && has_root ab || has_ext ab fe then ensure_Tw ab (id_rnea ab ddq fe o c) else id_rnea ab ddq fe o c)) i = twv ab i).
  { intros Ho. rewrite Ho, (has_root_ok ab i Hi (N i Hi)). cbn [andb orb]. apply ensure_Tw_at; auto. apply id_rnea_inv; auto. }
  destruct (Nat.eqb_spec i j) as [->|NE].
  - unfold pd_root_col. cbn zeta. destruct (o_grav o) eqn:Ho; cbn [andb].
    + cbn in W. cbn [ca_T with_rnea]. rewrite W by auto.
      destruct (o_cc o); rewrite ?mcross_zero_l, ?madd_zero_r, ?imul_zero, ?fcross_zero_l, ?fcross_zero_r, ?fadd_zero_r, imul_neg, mdot_opp_r; auto.
    + destruct (o_cc o); rewrite ?mcross_zero_l, ?madd_zero_r, ?imul_zero, ?fcross_zero_l, ?fcross_zero_r, ?fadd_zero_r, mdot_zero_r; auto.
  - cbn [andb]. destruct (o_cc o); cbn [andb]; destruct (Nat.ltb j i); rewrite ?mcross_zero_l, ?madd_zero_r, ?imul_zero, ?fcross_zero_l, ?fcross_zero_r, ?fadd_zero_r, mdot_zero_r; auto.
Qed.
End Roots.

Local Existing Instances RScal RLaws RPos REq.
Local Open Scope R_scope.
Lemma d_pair f t a (F : force) : mot_deriv f t a -> derivable_pt_lim (fun u => @mdot RScal (f u) F) t (@mdot RScal a F).
Proof.
  intros [(? & ? & ?) (? & ? & ?)]. unfold mdot. cbv [v3dot]. cbn [kadd kmul RScal].
  eapply d_eq; [repeat dstep|]. cbn. ring.
Qed.
Lemma d_imul (B : inertia) f t a (s : motion) : isym B -> mot_deriv f t a ->
  derivable_pt_lim (fun u => @mdot RScal s (imul B (f u))) t (@mdot RScal s (imul B a)).
Proof.
  intros SB H. apply (d_ext _ (fun u => @mdot RScal (f u) (imul B s))); [intros u; apply (imul_sym B s (f u)); exact SB|]. rewrite (imul_sym B s a) by auto. apply d_pair; auto.
Qed.

Section Api.
Variable solve : list (list (@K RScal)) -> list (@K RScal) -> list (@K RScal).
Variable pinv : list (list (@K RScal)) -> @K RScal -> list (list (@K RScal)) * bool.
Lemma idf0_root (ab : @body RScal) o ddq fe i : tree_ok ab -> rigid_robot ab -> (i < ab_dof ab)%nat -> par ab i = None ->
  @mdot RScal (sub_at ab i) (idf0 ab o ddq fe i) =
  (@mdot RScal (sub_at ab i) (imul (inertia_at ab i) (mscale (@qk RScal ddq i) (sub_at ab i))) +
   (if o_cc o then @mdot RScal (sub_at ab i) (fcross (velv ab i) (imul (inertia_at ab i) (velv ab i))) else 0)) -
  (if o_grav o then @mdot RScal (sub_at ab i) (imul (inertia_at ab i) (mact (iso_inv (twv ab i)) (ab_g ab))) else 0) -
  (match fe i with Some x => @mdot RScal (mact (twv ab i) (sub_at ab i)) x | None => 0 end).
Proof.
  intros T R Hi P. unfold idf0. rewrite (accv_eq ab T) by auto. rewrite P. cbn zeta.
  assert (VV : mcross (velv ab i) (mscale (@qk RScal (ab_dq ab) i) (sub_at ab i)) = mzero).
  { rewrite (velv_eq ab T) by auto. unfold vel_at. rewrite P. apply mcross_self. }
  rewrite VV. rewrite madd_zero_r.
  assert (RX : rigid (twv ab i)) by (apply (twv_rigid ab i R T Hi)).
  assert (FX : forall F x, @mdot RScal (sub_at ab i) (fsub F (fact (iso_inv (twv ab i)) x)) = @mdot RScal (sub_at ab i) F - @mdot RScal (mact (twv ab i) (sub_at ab i)) x).
  { intros F x. rewrite mdot_sub_r. rewrite mdot_act_l by auto. reflexivity. }
  assert (FM : forall F, @mdot RScal (sub_at ab i) (match fe i with None => F | Some x => fsub F (fact (iso_inv (twv ab i)) x) end) =
     @mdot RScal (sub_at ab i) F - match fe i with Some x => @mdot RScal (mact (twv ab i) (sub_at ab i)) x | None => 0 end).
  { intros F. destruct (fe i); [apply FX|]. rr. }
  rewrite FM. destruct (o_cc o), (o_grav o); rewrite ?mdot_add_r, ?imul_sub, ?mdot_sub_r;
    repeat match goal with |- context [@mdot RScal ?a ?b] => let v := fresh "m" in set (v := @mdot RScal a b); clearbody v end;
    destruct (fe i); rr.
Qed.
Lemma c41_roots h (ab : @body RScal) ddq fe o i j : reached solve pinv h ab -> base_fixed false h = true -> proper ab -> proper_joints ab ->
  (forall k, (k < ab_dof ab)%nat -> par ab k = None) -> o_fric o = false -> List.length ddq = ab_dof ab -> (i < ab_dof ab)%nat -> (j < ab_dof ab)%nat ->
  exists D tau, outcome (ask solve pinv (QPosD ddq fe o) ab) = Ok (AMat D) /\ @square RScal (ab_dof ab) D /\
    (forall x ab', placed ab (replaced (ab_q ab) j x) (ab_dq ab) ab' ->
       exists v, outcome (ask solve pinv (QID ddq fe o) ab') = Ok (AVec v) /\ @coef RScal v i = tau x) /\
    derivable_pt_lim tau (@coef RScal (ab_q ab) j) (@entry RScal D i j).
Proof.
  intros R0 B P Pj N Ho Hl Hi Hj. assert (AC : AddComm RScal) by apply laws_comm. destruct (reached_wfc _ _ _ _ R0 B) as [T W].
  pose proof (pr_rigid _ P) as R. pose (X x := at_ ab (replaced (ab_q ab) j x) (unit_vec (ab_dof ab) j)).
  pose (Y x := at_ ab (replaced (ab_q ab) j x) (ab_dq ab)).
  assert (Lq : forall x, List.length (replaced (ab_q ab) j x) = ab_dof ab) by (intros; rewrite replaced_length; apply T).
  assert (TY : forall x, tree_ok (Y x)) by (intros; apply at_tree; auto; apply T).
  exists (mat (ab_dof ab) (ab_dof ab) (pd_roots ab o)), (fun x => @mdot RScal (sub_at ab i) (idf0 (Y x) o ddq fe i)).
  split; [cbn [ask]; rewrite outcome_wrap, out_PosD by auto; reflexivity|]. split; [apply square_mat|]. split.
  - intros x ab' Hp. pose proof (placed_reached solve pinv h _ _ _ _ R0 Hp) as R1. destruct (placed_at _ _ _ _ Hp) as (_ & _ & E).
    assert (B1 : base_fixed false (h ++ [@OSetQ RScal (replaced (ab_q ab) j x); @OSetDq RScal (ab_dq ab)]) = true) by (apply base_fixed_app; auto).
    destruct (reached_wfc _ _ _ _ R1 B1) as [T1 W1].
    assert (P1 : proper ab') by (rewrite E; apply at_proper; auto).
    cbn [ask]. rewrite outcome_wrap, (out_ID ab' T1 W1) by auto.
    assert (D1 : ab_dof ab' = ab_dof ab) by (rewrite E; reflexivity). rewrite D1, Hl, Nat.eqb_refl. cbn [bind]. eexists. split; [reflexivity|].
    rewrite (@coef_vec RScal) by auto. unfold plus_friction. rewrite Ho. rewrite <- (id_decomp ab' T1 (pr_rigid _ P1)) by (try (apply proper_mass || apply proper_sym); auto; lia).
    assert (N1 : forall k, (k < ab_dof ab')%nat -> par ab' k = None) by (intros k Hk; rewrite D1 in Hk; rewrite E; apply (N k Hk)).
    rewrite (back_root ab' _ i T1 (pr_rigid _ P1) N1) by (rewrite D1; auto).
    rewrite E. reflexivity.
  - assert (EI : @entry RScal (mat (ab_dof ab) (ab_dof ab) (pd_roots ab o)) i j = pd_roots ab o i j) by (apply (@entry_mat RScal); auto).
    rewrite EI. clear EI.
    pose (cst := @mdot RScal (sub_at ab i) (imul (inertia_at ab i) (mscale (@qk RScal ddq i) (sub_at ab i))) +
      (if o_cc o then @mdot RScal (sub_at ab i) (fcross (velv ab i) (imul (inertia_at ab i) (velv ab i))) else 0)).
    apply (d_ext _ (fun x => cst - (if o_grav o then @mdot RScal (sub_at ab i) (imul (inertia_at ab i) (mact (iso_inv (twv (X x) i)) (ab_g ab))) else 0) -
       (match fe i with Some y => @mdot RScal (mact (twv (X x) i) (sub_at ab i)) y | None => 0 end))).
    { intros x. change (sub_at ab i) with (sub_at (Y x) i). rewrite (idf0_root (Y x) o ddq fe i (TY x) R Hi (N i Hi)). change (sub_at (Y x) i) with (sub_at ab i).
      assert (VY : velv (Y x) i = velv ab i).
      { rewrite (velv_eq (Y x) (TY x)), (velv_eq ab T) by auto. unfold vel_at. change (par (Y x) i) with (par ab i). rewrite N by auto. reflexivity. }
      rewrite VY. reflexivity. }
    assert (TW : iso_deriv (fun x => twv (X x) i) (@coef RScal (ab_q ab) j) (velv (X (@coef RScal (ab_q ab) j)) i)).
    { apply (tw_deriv ab T R Pj (replaced (ab_q ab) j) (fun _ => unit_vec (ab_dof ab) j) Lq (fun _ => unit_length _ _)); auto.
      apply replaced_deriv. apply T. }
    assert (VX : velv (X (@coef RScal (ab_q ab) j)) i = if Nat.eqb i j then sub_at ab i else mzero).
    { assert (TX : tree_ok (X (@coef RScal (ab_q ab) j))) by (apply at_tree; auto; apply unit_length). rewrite (velv_eq _ TX) by auto. unfold vel_at.
      change (par (X (@coef RScal (ab_q ab) j)) i) with (par ab i). rewrite N by auto.
      change (ab_dq (X (@coef RScal (ab_q ab) j))) with (unit_vec (ab_dof ab) j). unfold unit_vec. rewrite (@qk_vec RScal) by auto.
      change (sub_at (X (@coef RScal (ab_q ab) j)) i) with (sub_at ab i). destruct (Nat.eqb i j); [apply (@mscale_1 RScal RLaws)|apply (@mscale_zero_l RScal RLaws)]. }
    assert (XS : twv (X (@coef RScal (ab_q ab) j)) i = twv ab i).
    { change (twv (at_ ab (replaced (ab_q ab) j (@coef RScal (ab_q ab) j)) (ab_dq ab)) i = twv ab i). rewrite replaced_same. rewrite at_same. auto. }
    assert (RX : rigid (twv ab i)) by (apply (twv_rigid ab i R T Hi)).
    assert (SI : isym (inertia_at ab i)) by (apply proper_sym; auto).
    assert (DG : mot_deriv (fun x => mact (iso_inv (twv (X x) i)) (ab_g ab)) (@coef RScal (ab_q ab) j)
       (msub (mact (iso_inv (twv ab i)) mzero) (mcross (if Nat.eqb i j then sub_at ab i else mzero) (mact (iso_inv (twv ab i)) (ab_g ab))))).
    { rewrite <- XS, <- VX. apply (mot_deriv_into (fun x => twv (X x) i) (fun _ => ab_g ab)); auto; [apply mot_deriv_const|]. rewrite XS. auto. }
    assert (DE : forall x0, derivable_pt_lim (fun x => @mdot RScal (mact (twv (X x) i) (sub_at ab i)) x0) (@coef RScal (ab_q ab) j) 0).
    { intros x0. eapply d_eq; [apply d_pair; apply (mot_deriv_out (fun x => twv (X x) i)); [exact TW|]; rewrite XS; auto|].
      rewrite VX. destruct (Nat.eqb i j); rewrite ?mcross_self, ?mcross_zero_l, mact_zero, mdot_zero_l; reflexivity. }
    eapply d_eq.
    + apply d_sub; [apply d_sub; [apply d_const|]|].
      * instantiate (1 := if o_grav o then @mdot RScal (sub_at ab i) (imul (inertia_at ab i) (msub (mact (iso_inv (twv ab i)) mzero) (mcross (if Nat.eqb i j then sub_at ab i else mzero) (mact (iso_inv (twv ab i)) (ab_g ab))))) else 0).
        destruct (o_grav o); [|apply d_const]. apply (d_imul (inertia_at ab i) (fun x => mact (iso_inv (twv (X x) i)) (ab_g ab))); auto.
      * instantiate (1 := 0). destruct (fe i); [apply DE|apply d_const].
    + unfold pd_roots. rewrite mact_zero. destruct (Nat.eqb i j), (o_grav o); cbn [andb].
      * rewrite imul_neg, mdot_opp_r. rewrite (mcross_anti (mact (iso_inv (twv ab i)) (ab_g ab)) (sub_at ab i)), imul_opp, mdot_opp_r.
        generalize (@mdot RScal (sub_at ab i) (imul (inertia_at ab i) (mcross (sub_at ab i) (mact (iso_inv (twv ab i)) (ab_g ab))))). intros. rr.
      * rr.
      * rewrite mcross_zero_l. rewrite imul_neg, imul_zero, mdot_opp_r, mdot_zero_r. rr.
      * rr.
Qed.
End Api.
