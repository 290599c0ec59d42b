(** Friction in ForwardDynamicsAba (C60). *)
From Coq Require Import List Arith ZArith Bool Lia Ring Field Reals Lra.
From Verif Require Import Scalar Base Spatial SpecGeo Joint Body Kin InvDyn FwdDyn Opspace OpspaceAba Deriv Sim Ops Instances Specs SpecCache SpecKin SpecDyn SpecAba SpecReal SpecSim SpecFric SpatialTac SpatialProofs TreeProofs CacheProofs CacheOps JointProofs BigSum KinProofs WorldProofs DynProofs LoadProofs DynApi RealDyn AbaCache AbaProofs AbaLaws AbaApi FirmProofs SimProofs FricProofs.
Import ListNotations.

Section Feel.
Context {S : Scal} {L : ScalLaws S} {PL : PosLaws S}.
Add Field kfa : (@kfield S L).
Local Open Scope k_scope.
Variable ab : body.
Hypothesis T : tree_ok ab.
Let n := ab_dof ab.
Section Two.
Variables (o o' : id_opts) (tau tau' : list K) (p0 : nat -> force) (a0 r : nat -> motion).
Lemma pv_same : (forall i, (i < n)%nat -> forall f, f = pv ab o tau p0 a0 i ->
    aba_tau ab o i (qk tau i - mdot (sub_at ab i) f) = aba_tau ab o' i (qk tau' i - mdot (sub_at ab i) f)) ->
  forall i, (i < n)%nat -> pv ab o' tau' p0 a0 i = pv ab o tau p0 a0 i.
Proof.
  intros H. apply (leaves_ind ab). intros i Hi IH. unfold pv at 1 2. rewrite !sval_eq by auto. fold (pv ab o tau p0 a0). fold (pv ab o' tau' p0 a0).
  assert (G : forall l, (forall c, In c l -> In c (children ab i)) ->
    fold_right (fun c acc => pg ab o' tau' a0 c (pv ab o' tau' p0 a0 c) acc) (p0 i) l = fold_right (fun c acc => pg ab o tau a0 c (pv ab o tau p0 a0 c) acc) (p0 i) l).
  { induction l as [|c l IHl]; cbn [fold_right]; intros Hl; [reflexivity|]. rewrite IHl by (intros; apply Hl; right; auto).
    destruct (child_lt ab T i c Hi) as [Hc _]; [apply Hl; left; auto|]. rewrite IH by auto. unfold pg. rewrite (H c) by (auto; lia). reflexivity. }
  apply G; auto.
Qed.
Lemma lastv_same : (forall i, (i < n)%nat -> forall f, f = pv ab o tau p0 a0 i ->
    aba_tau ab o i (qk tau i - mdot (sub_at ab i) f) = aba_tau ab o' i (qk tau' i - mdot (sub_at ab i) f)) ->
  forall i, (i < n)%nat -> lastv ab o' tau' p0 a0 r i = lastv ab o tau p0 a0 r i.
Proof.
  intros H. assert (X : forall i, (i < n)%nat -> xv ab o' tau' p0 a0 i = xv ab o tau p0 a0 i) by (intros i Hi; unfold xv; rewrite pv_same by auto; rewrite (H i) by auto; reflexivity).
  induction i as [i IH] using lt_wf_ind. intros Hi. unfold lastv. rewrite !tval_eq by auto. fold (lastv ab o tau p0 a0 r). fold (lastv ab o' tau' p0 a0 r).
  destruct (par ab i) as [p|] eqn:E.
  - pose proof (tree_par _ _ _ T Hi E). rewrite IH by (unfold n; lia). unfold lastp. rewrite X by auto. reflexivity.
  - unfold lastp. rewrite X by auto. reflexivity.
Qed.
End Two.
End Feel.

Section Real.
Variable solve : list (list R) -> list R -> list R.
Variable pinv : list (list R) -> R -> list (list R) * bool.
Local Existing Instance RScal.
Local Open Scope R_scope.
Lemma aba_fric ab o i t : o_fric o = true -> exists u,
  @aba_tau RScal ab o i t = t - @friction1 RScal (joint_i ab i) (@coef RScal (ab_dq ab) i) u false (o_stic o) /\ u = t - jviscous (joint_i ab i) * @coef RScal (ab_dq ab) i.
Proof.
  intros Ho. exists (t - jviscous (joint_i ab i) * @coef RScal (ab_dq ab) i). split; [|reflexivity]. unfold aba_tau. rewrite Ho. change (rb_joint (rb_at ab i)) with (joint_i ab i). change (@qk RScal (ab_dq ab) i) with (@coef RScal (ab_dq ab) i).
  unfold friction1. rewrite kmin_swap. cbn [kadd kmul ksub keq k0 kabs RScal]. cbv zeta. apply moved. reflexivity.
Qed.
Lemma c60_aba_feels h (ab : @body RScal) tau fe o : reached solve pinv h ab -> base_fixed false h = true -> unmixed h = true ->
  o_fric o = true -> 0 <= o_stic o -> List.length tau = ab_dof ab -> (forall i, (i < ab_dof ab)%nat -> friction_coefficients (joint_i ab i)) ->
  exists F, List.length F = ab_dof ab /\
    outcome (ask solve pinv (QAba tau fe o) ab) = outcome (ask solve pinv (QAba (@less RScal (ab_dof ab) tau F) fe (frictionless o)) ab) /\
    forall i, (i < ab_dof ab)%nat -> let j := joint_i ab i in let dq := @coef RScal (ab_dq ab) i in
      exists s, @coef RScal F i = jviscous j * dq + s /\
        (o_stic o < Rabs dq -> 0 < jcoulomb j -> s = jcoulomb j * sign dq) /\
        (Rabs dq <= o_stic o \/ jcoulomb j = 0 -> Rabs s <= jcoulomb j + jstiction j).
Proof.
  intros Rh Bf U Ho He Ht HC. destruct (@reached_wfa RScal solve pinv (@laws_comm RScal RLaws) h ab Rh Bf U) as [T W]. set (n := ab_dof ab).
  set (p0 := biasf ab o fe). set (a0 := biasa ab o).
  set (phi := fun i => let t := @coef RScal tau i - @mdot RScal (sub_at ab i) (pv ab o tau p0 a0 i) in t - @aba_tau RScal ab o i t).
  exists (vec n phi). split; [apply vec_length|]. split.
  - rewrite (@out_aba RScal solve pinv ab tau fe o T W Ht), (@out_aba RScal solve pinv ab (@less RScal n tau (vec n phi)) fe (frictionless o) T W (vec_length _ _)). do 2 f_equal. apply vec_ext. intros i Hi. f_equal. symmetry.
    unfold abav. change (biasf ab (frictionless o) fe) with p0. change (biasa ab (frictionless o)) with a0. change (o_grav (frictionless o)) with (o_grav o).
    apply (lastv_same ab T o (frictionless o) tau (@less RScal n tau (vec n phi)) p0 a0); [|exact Hi].
    intros k Hk f ->. unfold aba_tau at 2. cbn [frictionless o_fric]. rewrite less_vec, (@qk_vec RScal), (@coef_vec RScal) by auto. unfold phi. cbv zeta.
    change (@qk RScal tau k) with (@coef RScal tau k). cbn [ksub RScal]. symmetry. match goal with |- ?a = ?b => change (@eq R a b) end. ring.
  - intros i Hi j dq. rewrite (@coef_vec RScal) by auto. destruct (HC i Hi) as (C1 & C2 & C3). fold j in C1, C2, C3. unfold phi. cbv zeta.
    set (t := @coef RScal tau i - @mdot RScal (sub_at ab i) (pv ab o tau p0 a0 i)). destruct (aba_fric ab o i t Ho) as (u & E & _). fold j dq in E.
    exists (@friction1 RScal j dq u false (o_stic o) - jviscous j * dq). split; [rewrite E; match goal with |- ?a = ?b => change (@eq R a b) end; cbn; ring|]. split.
    + intros H1 H2. rewrite friction_kinetic by auto. ring.
    + intros H1. rewrite friction_static by auto. replace (jviscous j * dq + Rmin (jcoulomb j + jstiction j) (Rabs u) * sign u - jviscous j * dq) with (Rmin (jcoulomb j + jstiction j) (Rabs u) * sign u) by ring.
      rewrite Rabs_mult. assert (S1 : Rabs (sign u) <= 1) by (unfold sign; destruct (Rlt_dec 0 u); [rewrite Rabs_R1; lra|]; destruct (Rlt_dec u 0); [rewrite Rabs_left; lra|rewrite Rabs_R0; lra]).
      assert (M0 : 0 <= Rmin (jcoulomb j + jstiction j) (Rabs u)) by (apply Rmin_glb; [lra|apply Rabs_pos]). rewrite (Rabs_right _ (Rle_ge _ _ M0)).
      pose proof (Rmin_l (jcoulomb j + jstiction j) (Rabs u)). pose proof (Rabs_pos (sign u)). nra.
Qed.
Lemma c60_friction_aba h (ab : @body RScal) tau fe o : reached solve pinv h ab -> base_fixed false h = true -> unmixed h = true ->
  o_fric o = true -> 0 <= o_stic o -> List.length tau = ab_dof ab -> (forall i, (i < ab_dof ab)%nat -> friction_coefficients (joint_i ab i)) ->
  exists F, List.length F = ab_dof ab /\
    outcome (ask solve pinv (QAba tau fe o) ab) = outcome (ask solve pinv (QAba (@less RScal (ab_dof ab) tau F) fe (frictionless o)) ab) /\
    (forall i, (i < ab_dof ab)%nat -> let j := joint_i ab i in let dq := @coef RScal (ab_dq ab) i in
      exists s, @coef RScal F i = jviscous j * dq + s /\
        (o_stic o < Rabs dq -> 0 < jcoulomb j -> s = jcoulomb j * sign dq) /\
        (Rabs dq <= o_stic o \/ jcoulomb j = 0 -> Rabs s <= jcoulomb j + jstiction j)) /\
    (proper ab -> articulable ab -> (o_grav o = true -> rot (ab_Tbase ab) = m3id) -> exists ddq,
      outcome (ask solve pinv (QAba tau fe o) ab) = Ok (AVec ddq) /\
      outcome (ask solve pinv (QID ddq fe (frictionless o)) ab) = Ok (AVec (@less RScal (ab_dof ab) tau F))).
Proof.
  intros Rh Bf U Ho He Ht HC. destruct (c60_aba_feels h ab tau fe o Rh Bf U Ho He Ht HC) as (F & LF & E & HF). exists F. do 3 (split; auto).
  intros P AR GB. destruct (@c18 RScal RLaws RPos solve pinv h ab fe (frictionless o) Rh Bf U P AR eq_refl GB) as [H1 _].
  destruct (H1 (@less RScal (ab_dof ab) tau F)) as (ddq & E1 & E2); [apply vec_length|]. exists ddq. rewrite E. auto.
Qed.
Lemma aba_stuck ab o i t : o_fric o = true -> 0 <= o_stic o -> @coef RScal (ab_dq ab) i = 0 -> friction_coefficients (joint_i ab i) ->
  Rabs t <= jcoulomb (joint_i ab i) + jstiction (joint_i ab i) -> @aba_tau RScal ab o i t = 0.
Proof.
  intros Ho He V0 _ Ht. destruct (aba_fric ab o i t Ho) as (u & -> & E). rewrite V0 in *. rewrite Rmult_0_r, Rminus_0_r in E. subst u.
  rewrite friction_static by (auto; left; rewrite Rabs_R0; auto). rewrite Rmin_right by auto. match goal with |- ?a = ?b => change (@eq R a b) end. unfold sign. destruct (Rlt_dec 0 t); [rewrite Rabs_right by lra; ring|]. destruct (Rlt_dec t 0); [rewrite Rabs_left by lra; ring|]. lra.
Qed.
Lemma c60_sticks_aba h (ab : @body RScal) tau fe o b : reached solve pinv h ab -> base_fixed false h = true -> unmixed h = true -> proper ab -> articulable ab ->
  o_fric o = true -> 0 <= o_stic o -> o_grav o = false -> List.length tau = ab_dof ab ->
  outcome (ask solve pinv (QID (zeros (ab_dof ab)) fe (frictionless o)) ab) = Ok (AVec b) ->
  (forall i, (i < ab_dof ab)%nat -> friction_coefficients (joint_i ab i) /\ @coef RScal (ab_dq ab) i = 0 /\
     Rabs (@coef RScal tau i - @coef RScal b i) <= jcoulomb (joint_i ab i) + jstiction (joint_i ab i)) ->
  outcome (ask solve pinv (QAba tau fe o) ab) = Ok (AVec (zeros (ab_dof ab))).
Proof.
  intros Rh Bf U P AR Ho He NG Ht Hb HJ. destruct (@reached_wfa RScal solve pinv (@laws_comm RScal RLaws) h ab Rh Bf U) as [T W].
  destruct (@reached_wfc RScal solve pinv (@laws_comm RScal RLaws) h ab Rh Bf) as [_ WC].
  destruct (@c18 RScal RLaws RPos solve pinv h ab fe (frictionless o) Rh Bf U P AR eq_refl) as [_ H2]; [cbn; rewrite NG; discriminate|].
  destruct (H2 (zeros (ab_dof ab)) (repeat_length _ _)) as (b' & E1 & E2). rewrite Hb in E1. injection E1 as <-.
  assert (Lb : List.length b = ab_dof ab).
  { cbn [ask] in Hb. rewrite outcome_wrap, (@out_ID RScal RLaws RPos ab T WC) in Hb by auto. destruct (Nat.eqb _ _); [|discriminate]. injection Hb as <-. apply vec_length. }
  set (n := ab_dof ab) in *. rewrite <- E2. pose proof E2 as E3. rewrite (@out_aba RScal solve pinv ab b fe (frictionless o) T W Lb) in E3. injection E3 as E3.
  rewrite (@out_aba RScal solve pinv ab tau fe o T W Ht), (@out_aba RScal solve pinv ab b fe (frictionless o) T W Lb). do 2 f_equal. apply vec_ext. intros i0 Hi0. f_equal.
  set (p0 := biasf ab o fe). set (a0 := biasa ab o). set (r := fun _ : nat => @mzero RScal).
  assert (EA : forall t q, o_grav q = false -> biasf ab q fe = p0 -> biasa ab q = a0 -> abav ab t fe q = lastv ab q t p0 a0 r) by (intros t q G E5 E6; unfold abav; rewrite G, E5, E6; reflexivity).
  rewrite (EA tau o) by auto. rewrite (EA b (frictionless o)) by auto.
  assert (E3' : forall i, (i < n)%nat -> snd (lastv ab (frictionless o) b p0 a0 r i) = 0).
  { intros i Hi. rewrite <- (EA b (frictionless o)) by auto. pose proof (f_equal (fun l => @coef RScal l i) E3) as X. cbv beta in X. rewrite (@coef_vec RScal) in X by auto. refine (eq_trans X _). apply (@qk_zero RScal n i). }
  assert (A0 : forall i, (i < n)%nat -> a0 i = mzero).
  { intros i Hi. unfold a0, biasa. destruct (par ab i); [|reflexivity]. destruct (HJ i Hi) as (_ & V0 & _). change (@qk RScal (ab_dq ab) i) with (@coef RScal (ab_dq ab) i). rewrite V0.
    destruct (o_cc o); change 0 with (@k0 RScal); rewrite (@mscale_zero_l RScal RLaws), (@mcross_zero_r RScal RLaws); reflexivity. }
  assert (X0 : forall i, (i < n)%nat -> fst (lastv ab (frictionless o) b p0 a0 r i) = mzero /\ xv ab (frictionless o) b p0 a0 i = 0).
  { induction i as [i IH] using lt_wf_ind. intros Hi. pose proof (E3' i Hi) as Y. unfold lastv in *. rewrite tval_eq in * by auto. fold (lastv ab (frictionless o) b p0 a0 r) in *.
    assert (Z : forall a1, a1 = mzero -> snd (lastp ab (frictionless o) b p0 a0 i a1) = 0 -> fst (lastp ab (frictionless o) b p0 a0 i a1) = mzero /\ xv ab (frictionless o) b p0 a0 i = 0).
    { intros a1 -> Z. unfold lastp in *. cbn [fst snd] in *. rewrite (@mdot_zero_l RScal RLaws) in *.
      assert (Q : xv ab (frictionless o) b p0 a0 i = 0) by (rewrite <- Z; cbn; unfold Rdiv; ring). split; [|exact Q]. rewrite Z. change 0 with (@k0 RScal).
      rewrite (@mscale_zero_l RScal RLaws), (@madd_zero_l RScal RLaws). reflexivity. }
    destruct (par ab i) as [p|] eqn:E; apply Z; auto. pose proof (tree_par _ _ _ T Hi E). destruct (IH p) as [-> _]; [lia|unfold n; lia|].
    rewrite A0 by auto. rewrite (@mact_zero RScal RLaws), (@madd_zero_l RScal RLaws). reflexivity. }
  apply (lastv_same ab T (frictionless o) o b tau p0 a0); [|exact Hi0].
  intros i Hi f ->. destruct (HJ i Hi) as (FC & V0 & HT). destruct (X0 i Hi) as [_ Q]. unfold xv, aba_tau in Q. unfold aba_tau at 1. cbn [frictionless o_fric] in *.
  pose proof (@dv_neq RScal ab AR i Hi) as D. set (d := dv ab i) in *. set (sf := @mdot RScal (sub_at ab i) (pv ab (frictionless o) b p0 a0 i)) in *.
  change (@qk RScal b i) with (@coef RScal b i) in *. change (@qk RScal tau i) with (@coef RScal tau i) in *.
  assert (Q1 : @coef RScal b i - sf = 0) by (apply (Rmult_eq_reg_r (/ d)); [rewrite Rmult_0_l; exact Q|apply Rinv_neq_0_compat; exact D]).
  symmetry. transitivity 0; [|symmetry; exact Q1]. apply aba_stuck; auto. assert (Q2 : sf = @coef RScal b i) by (apply Rminus_diag_uniq_sym; exact Q1). rewrite Q2. exact HT.
Qed.
End Real.
