(** Robots with sliding joints only: the variational integrator converges (C49). *)
From Coq Require Import List Arith ZArith Bool Lia Field.
From Verif Require Import Scalar Base Spatial SpecGeo SpatialTac SpatialProofs Joint Body Kin InvDyn FwdDyn Opspace OpspaceAba Deriv Sim Ops Discrete Specs SpecCache SpecKin SpecDyn SpecDiscrete TreeProofs CacheProofs CacheOps OpsCache KinProofs WorldProofs DynProofs DynApi AbaLaws BigSum VelProofs DiscreteCache DiscreteProofs DiscreteTravel DiscreteLaws DiscreteSlide DiscreteApi DiscreteStill.
Import ListNotations.

Section Conv.
Context {S : Scal} {L : ScalLaws S} {ES : EqSound S} {PL : PosLaws S}.
Add Field kf : (@kfield S L).
Variable solve : list (list K) -> list K -> list K.
Variable pinv : list (list K) -> K -> list (list K) * bool.
Variable log6 : iso -> motion.
Variable dlog6 : iso -> i6.
Variable norm : list K -> K.
Local Open Scope k_scope.
Local Notation dval := (dval log6 dlog6).
Local Notation DI := (q_DiscreteIntegrate solve log6 dlog6 norm).
Local Notation ready := (ready log6 dlog6).

(** ** The inertia matrix does not depend on the configuration *)
Section Robot.
Variable ab : body.
Hypothesis T : tree_ok ab.
Hypothesis P : proper ab.
Hypothesis PJ : proper_joints ab.
Hypothesis SJ : sliding_joints ab.
Let n := ab_dof ab.

Lemma Sw_still q k : List.length q = n -> (k < n)%nat -> Sw (at_q ab q) k = Sw ab k.
Proof.
  intros Hl Hk. unfold Sw. pose proof (slide_rot ab T PJ SJ q k Hl Hk) as E.
  destruct (slide_at ab T PJ SJ k Hk) as (e & E1 & _). change (sub_at (at_q ab q) k) with (sub_at ab k). rewrite E1.
  destruct (twv (at_q ab q) k) as [Q t], (twv ab k) as [Q' t']. cbn in E. subst Q'. clear E1. revert Q t t' e. vring.
Qed.
Lemma Av_still q i j : List.length q = n -> (i < n)%nat -> (j < n)%nat -> Av (at_q ab q) i j = Av ab i j.
Proof.
  intros Hl Hi Hj. pose proof (tree_at_q ab q T Hl) as T'.
  assert (P' : proper (at_q ab q)) by (destruct P; constructor; auto).
  rewrite (A_world ab T (pr_rigid _ P) (proper_mass _ P) (proper_sym _ P)) by auto.
  rewrite (A_world (at_q ab q) T' (pr_rigid _ P') (proper_mass _ P') (proper_sym _ P')) by auto.
  apply ksum_ext. intros k Hk. change (ancb (at_q ab q)) with (ancb ab). destruct (_ && _); auto.
  rewrite !Sw_still by auto.
  pose proof (slide_Sw ab T PJ SJ i Hi) as Z1. pose proof (slide_Sw ab T PJ SJ j Hj) as Z2.
  destruct (Sw ab i) as [l a], (Sw ab j) as [l' a']. cbn in Z1, Z2. subst a a'.
  unfold Iw. change (inertia_at (at_q ab q) k) with (inertia_at ab k).
  generalize (twv (at_q ab q) k) (twv ab k) (inertia_at ab k). intros X Y B. revert X Y B l l'. vring.
Qed.

(** ** The impulses are affine in the next configuration *)
Hypothesis HS : straight log6 dlog6.
Hypothesis NL : forall k, (k < n)%nat -> ab_loads ab (Z.of_nat k) = None.
Lemma dval_affine dt qp qn qn' fe grav i : dt <> 0 -> List.length qp = n -> List.length qn = n -> List.length qn' = n -> (i < n)%nat ->
  dval ab qp qn' dt fe grav i = dval ab qp qn dt fe grav i + ksum n (fun j => Av ab i j * ((qk qn' j - qk qn j) / dt)).
Proof.
  intros Hd Hp Hn Hn' Hi. destruct (tk_cache _ T) as [c _].
  assert (T2 : tree_ok (from dt c n qp ab)) by (apply tree_restart; [auto|apply vmap2_length]).
  assert (P2 : proper (from dt c n qp ab)) by (destruct P; constructor; auto).
  assert (E : before (from dt c n qp ab) dt = qp).
  { eapply eq_trans; [|apply (from_prevq dt c qp ab); auto]. reflexivity. }
  pose proof (dval_slide log6 dlog6 (from dt c n qp ab) T2 (pr_rigid _ P2) PJ SJ HS NL dt qn fe (IdOpts grav false false 0) i Hd Hn Hi) as X.
  pose proof (dval_slide log6 dlog6 (from dt c n qp ab) T2 (pr_rigid _ P2) PJ SJ HS NL dt qn' fe (IdOpts grav false false 0) i Hd Hn' Hi) as X'.
  rewrite E in X, X'. cbn [o_grav] in X, X'. change (dval (from dt c n qp ab)) with (dval ab) in X, X'.
  rewrite (id_decomp _ T2 (pr_rigid _ P2) (proper_mass _ P2) (proper_sym _ P2)) in X, X' by auto.
  rewrite X, X'. unfold id_base, mat_vec. change (ab_dof (from dt c n qp ab)) with n. change (Av (from dt c n qp ab)) with (Av ab).
  assert (Y : ksum n (fun j => Av ab i j * qk (accel (from dt c n qp ab) dt qn') j) = ksum n (fun j => Av ab i j * qk (accel (from dt c n qp ab) dt qn) j) + ksum n (fun j => Av ab i j * ((qk qn' j - qk qn j) / dt / dt))).
  { rewrite <- ksum_add. apply ksum_ext. intros j Hj. unfold accel. change (ab_dof (from dt c n qp ab)) with n. rewrite !qk_vec by auto. field. auto. }
  rewrite Y. assert (Z : ksum n (fun j => Av ab i j * ((qk qn' j - qk qn j) / dt)) = dt * ksum n (fun j => Av ab i j * ((qk qn' j - qk qn j) / dt / dt))).
  { rewrite <- ksum_scale. apply ksum_ext. intros j Hj. field. auto. }
  rewrite Z. ring.
Qed.

(** ** Two iterations are enough *)
Hypothesis SO : solver_ok solve n (mat n n (Av ab)).
Lemma slide_newton cap tau dt fe grav eps qn c qp : dt <> 0 -> keq dt dt = true -> inv ab c -> dri log6 dlog6 ab (ca_dr c) -> prevq ab dt (ca_dr c) = qp ->
  List.length qp = n -> List.length qn = n -> (2 <= cap)%nat -> klt (norm (repeat 0 n)) eps = true ->
  exists c' qn', newton solve log6 dlog6 norm cap ab tau dt fe grav eps qn c = (c', qn', true).
Proof.
  intros Hd HR V D Q Lp Ln Hc HN. destruct cap as [|[|cap]]; try lia. remember (Datatypes.S cap) as cap1. cbn [newton]. fold n.
  destruct (discrete_id_ok log6 dlog6 ab T qn dt fe grav c (apart dt) V D) as (V1 & A1 & X1). rewrite Q in *.
  destruct (discrete_id log6 dlog6 ab qn dt fe grav c) as [c1 x]. cbn [fst snd] in *.
  set (e := vec n (fun i => x i - dt * qk tau i)). destruct (klt (norm e) eps) eqn:HE; [eauto|].
  destruct (ensure_crba_inv_inv ab T c1 V1) as [V2 F2].
  assert (EA : mat n n (c_Afact (ca_crba (ensure_crba_inv ab c1))) = mat n n (Av ab)).
  { apply mat_ext. intros i j Hi Hj. apply (i_crbai _ _ V2); auto. }
  rewrite EA. destruct (SO e (vec_length _ _)) as [S1 S2]. set (s := solve (mat n n (Av ab)) e) in *.
  set (qn1 := vec n (fun i => qk qn i - dt * qk s i)). subst cap1. cbn [newton]. fold n.
  assert (D2 : ca_dr (ensure_crba_inv ab c1) = ca_dr c1) by apply dr_crba_inv.
  pose proof (asked_dri _ _ _ _ _ _ _ A1) as D1. pose proof (asked_prevq _ _ _ _ _ _ _ HR A1) as Q1. rewrite <- D2 in D1, Q1.
  destruct (discrete_id_ok log6 dlog6 ab T qn1 dt fe grav (ensure_crba_inv ab c1) (apart dt) V2 D1) as (V3 & A3 & X3). rewrite Q1 in *.
  destruct (discrete_id log6 dlog6 ab qn1 dt fe grav (ensure_crba_inv ab c1)) as [c3 y]. cbn [fst snd] in *.
  assert (Z : vec n (fun i => y i - dt * qk tau i) = repeat 0 n).
  { rewrite repeat_vec. apply vec_ext. intros i Hi. rewrite X3 by auto. rewrite (dval_affine dt qp qn qn1) by (auto; apply vec_length).
    rewrite <- X1 by auto. specialize (S2 i Hi). unfold row_times in S2. rewrite total_ksum in S2. unfold e in S2. rewrite coef_vec in S2 by auto.
    assert (W : ksum n (fun j => Av ab i j * ((qk qn1 j - qk qn j) / dt)) = 0 - (x i - dt * qk tau i)).
    { rewrite <- S2. replace (0 - ksum n (fun x0 => entry (mat n n (Av ab)) i x0 * coef s x0)) with (- ksum n (fun x0 => entry (mat n n (Av ab)) i x0 * coef s x0)) by ring.
      rewrite <- ksum_opp. apply ksum_ext. intros j Hj. rewrite entry_mat by auto. unfold qn1. rewrite qk_vec by auto. unfold coef, qk. field. auto. }
    rewrite W. ring. }
  rewrite Z, HN. eauto.
Qed.

Lemma slide_step tau dt fe grav eps cap qp : dt <> 0 -> keq dt dt = true -> ready dt qp ab -> List.length qp = n ->
  List.length tau = n -> (2 <= cap)%nat -> klt (norm (repeat 0 n)) eps = true ->
  exists ab', DI tau dt fe grav eps cap ab = Ok (ab', true).
Proof.
  intros Hd HR (_ & c & Ec & V & D & Q) Lp Lt Hc HN. unfold q_DiscreteIntegrate. fold n. rewrite Lt, Nat.eqb_refl, Ec.
  pose proof (forward_dynamics_inv solve ab T tau fe (fd_options grav) c V) as V1.
  pose proof (dr_fd solve ab tau fe (fd_options grav) c) as D1.
  destruct (forward_dynamics solve ab tau fe (fd_options grav) c) as [c1 a]. cbn [fst] in V1, D1. rewrite <- D1 in D, Q.
  match goal with |- context [newton _ _ _ _ _ _ _ _ _ _ _ ?x c1] => set (q0 := x) end.
  assert (L0 : List.length q0 = n) by apply vec_length.
  destruct (slide_newton cap tau dt fe grav eps q0 c1 qp Hd HR V1 D Q Lp L0 Hc HN) as (c2 & qn & E).
  pose proof (newton_ok solve log6 dlog6 norm ab T cap tau dt fe grav eps (apart dt) HR q0 c1 qp V1 D Q) as X. rewrite E in X |- *.
  destruct X as (_ & _ & L2 & _). specialize (L2 L0).
  assert (T2 : tree_ok (set_cache ab (Some c2))) by (apply tree_set_cache; auto).
  destruct (set_q_ok (set_cache ab (Some c2)) qn T2 L2) as (ab3 & E3). rewrite E3. cbn [called]. unfold bind at 1.
  pose proof (tree_set_q _ _ _ T2 E3) as T3. destruct (set_q_val qn (set_cache ab (Some c2)) c2 ab3 eq_refl E3) as (c3 & Ec3 & _).
  destruct (set_q_frame _ _ _ E3) as ((F1 & _) & _). cbn in F1.
  match goal with |- context [set_dq ?v ab3] => assert (LV : List.length v = ab_dof ab3) by (rewrite vec_length; auto); destruct (set_dq_ok ab3 v T3 LV) as (ab4 & E4) end.
  rewrite E4. cbn [called bind]. destruct (set_dq_val _ _ c3 ab4 Ec3 E4) as (c4 & Ec4 & _). rewrite Ec4. eauto.
Qed.
End Robot.

(** Another state of the same robot. *)
Lemma same_Av a b : ab_dof b = ab_dof a -> ab_rbs b = ab_rbs a -> ab_g b = ab_g a -> ab_loads b = ab_loads a -> ab_Tbase b = ab_Tbase a ->
  ab_anc b = ab_anc a -> ab_sub b = ab_sub a -> Av b = Av (at_q a (ab_q b)).
Proof. destruct a, b. cbn. intros. subst. reflexivity. Qed.
Lemma same_proper a b : ab_dof b = ab_dof a -> ab_rbs b = ab_rbs a -> ab_loads b = ab_loads a -> ab_Tbase b = ab_Tbase a -> proper a -> proper b.
Proof. destruct a, b. cbn. intros. subst. destruct H3; constructor; auto. Qed.

Lemma slide_travel dt : dt <> 0 -> keq dt dt = true -> straight log6 dlog6 -> forall legs qp ab,
  ready dt qp ab -> List.length qp = ab_dof ab -> proper ab -> proper_joints ab -> sliding_joints ab ->
  (forall k, (k < ab_dof ab)%nat -> ab_loads ab (Z.of_nat k) = None) -> solver_ok solve (ab_dof ab) (mat (ab_dof ab) (ab_dof ab) (Av ab)) ->
  Forall (fun l => l_before l = [] /\ List.length (l_tau l) = ab_dof ab /\ (2 <= l_cap l)%nat /\ klt (norm (repeat 0 (ab_dof ab))) (l_eps l) = true) legs ->
  exists abs, travel solve pinv log6 dlog6 norm dt legs ab = Some abs.
Proof.
  intros Hd HR HS. induction legs as [|l legs IH]; intros qp ab R Lp P PJ SJ NL SO HL; [eexists; reflexivity|].
  inversion HL as [|? ? (H1 & H2 & H3 & H4) HL']; subst. cbn [travel]. rewrite H1. cbn [map run].
  pose proof (proj1 R) as T.
  destruct (slide_step ab T P PJ SJ HS NL SO (l_tau l) dt (l_fe l) (l_grav l) (l_eps l) (l_cap l) qp Hd HR R Lp H2 H3 H4) as (ab' & E).
  rewrite E. destruct (dint_ok solve log6 dlog6 norm _ _ _ _ _ _ _ _ _ (apart dt) HR R E) as (R2 & I1 & I2 & I3 & I4 & I5 & I6 & I7 & I8 & _ & _).
  destruct (IH (ab_q ab) ab' R2) as (abs & ->); [| | | | | | |eauto].
  - rewrite I1. apply T.
  - eapply same_proper; eauto.
  - unfold proper_joints. rewrite I2. exact PJ.
  - unfold sliding_joints. rewrite I2. exact SJ.
  - rewrite I1, I5. exact NL.
  - rewrite I1, (same_Av ab ab') by auto. rewrite (mat_ext _ _ (Av (at_q ab (ab_q ab'))) (Av ab)); [exact SO|].
    intros i j Hi Hj. apply Av_still; auto.
  - rewrite I1. exact HL'.
Qed.

Local Notation dreached := (dreached solve pinv log6 dlog6 norm).
Lemma c49_converges h ab A dt legs : dreached h ab -> dbase_fixed false h = true -> no_integration h = true ->
  proper ab -> proper_joints ab -> sliding_joints ab -> (forall k, (k < ab_dof ab)%nat -> ab_loads ab (Z.of_nat k) = None) ->
  straight log6 dlog6 -> dt <> 0 -> keq dt dt = true ->
  outcome (ask solve pinv QInertia ab) = Ok (AMat A) -> solver_ok solve (ab_dof ab) A ->
  Forall (fun l => l_before l = [] /\ List.length (l_tau l) = ab_dof ab /\ (2 <= l_cap l)%nat /\ klt (norm (repeat 0 (ab_dof ab))) (l_eps l) = true) legs ->
  exists abs, travel solve pinv log6 dlog6 norm dt legs ab = Some abs.
Proof.
  intros Re Hb Hn P PJ SJ NL HS Hd HR HA SO HL. destruct (dreached_ok solve pinv log6 dlog6 norm h ab Re Hb Hn) as [T W].
  cbn [ask] in HA. rewrite outcome_wrap, (out_Inertia ab T W) in HA. cbn in HA. inversion HA; subst A; clear HA.
  pose proof (ready_start solve pinv log6 dlog6 norm h ab dt Re Hb Hn) as RD.
  eapply slide_travel; eauto. apply vmap2_length.
Qed.
End Conv.
