(** Robots with sliding joints only: discrete and continuous dynamics agree (C49);
    statements about the API. *)
From Coq Require Import List Arith ZArith Bool Lia Field.
From Verif Require Import Scalar Base Spatial SpecGeo SpatialTac SpatialProofs Joint Body Kin InvDyn FwdDyn Opspace OpspaceAba Deriv Sim Ops Discrete Specs SpecCache SpecKin SpecDyn SpecDiscrete TreeProofs CacheProofs CacheOps OpsCache KinProofs WorldProofs DynProofs DynApi AbaLaws BigSum DiscreteCache DiscreteProofs DiscreteTravel DiscreteLaws.
Import ListNotations.

Section Slide.
Context {S : Scal} {L : ScalLaws S}.
Add Field kf : (@kfield S L).
Variable log6 : iso -> motion.
Variable dlog6 : iso -> i6.
Local Open Scope k_scope.
Local Notation dval := (dval log6 dlog6).
Local Notation DID := (q_DiscreteID log6 dlog6).

Section Robot.
Variable ab : body.
Hypothesis T : tree_ok ab.
Hypothesis R : rigid_robot ab.
Hypothesis PJ : proper_joints ab.
Hypothesis SJ : sliding_joints ab.
Let n := ab_dof ab.

Lemma slide_at i : (i < n)%nat -> exists e, sub_at ab i = Mot e v3zero /\ forall q, T_par_q ab i q = iso_mul (rb_T (rb_at ab i)) (Iso m3id (v3scale q e)).
Proof.
  intros Hi. unfold proper_joints, sliding_joints in *. rewrite Forall_forall in PJ, SJ.
  assert (I : In (rb_at ab i) (ab_rbs ab)) by (apply nth_In; rewrite (tk_rbs _ T); auto).
  specialize (PJ _ I). specialize (SJ _ I). unfold sub_at, T_par_q, T_joint. rewrite PJ. cbn in SJ.
  destruct SJ as [E|[E|[E|[]]]]; rewrite <- E; cbn; eexists; split; reflexivity.
Qed.
Lemma rot_step A B t : rot (iso_mul A (iso_mul B (Iso m3id t))) = m3mul (rot A) (rot B).
Proof. cbn. rewrite m3mul_id_r. auto. Qed.
Lemma slide_rot q k : List.length q = n -> (k < n)%nat -> rot (twv (at_q ab q) k) = rot (twv ab k).
Proof.
  intros Hl. pose proof (tree_at_q ab q T Hl) as T'. induction k as [k IH] using lt_wf_ind. intros Hk.
  rewrite (twv_eq ab k), (twv_eq (at_q ab q) k) by auto. change (par (at_q ab q) k) with (par ab k).
  change (tpv (at_q ab q) k) with (T_par_q ab k (qk q k)). change (tpv ab k) with (T_par_q ab k (qk (ab_q ab) k)).
  destruct (slide_at k Hk) as (e & _ & E). rewrite !E. destruct (par ab k) as [p|] eqn:P; rewrite !rot_step; [|reflexivity].
  pose proof (par_lt ab T k p Hk P). rewrite IH by lia. auto.
Qed.
Lemma slide_Sw k : (k < n)%nat -> mang (Sw ab k) = v3zero.
Proof. intros Hk. unfold Sw. destruct (slide_at k Hk) as (e & -> & _). generalize (twv ab k). intros [Q t]. revert Q t. vring. Qed.
Definition v3sum (m : nat) (f : nat -> v3) : v3 := bsum v3add v3zero m f.
Lemma v3add_comm a b : v3add a b = v3add b a. Proof. revert a b. vring. Qed.
Lemma v3add_assoc a b c : v3add a (v3add b c) = v3add (v3add a b) c. Proof. revert a b c. vring. Qed.
Lemma v3add_zero a : v3add v3zero a = a. Proof. revert a. vring. Qed.
Lemma slide_tra q k : List.length q = n -> (k < n)%nat ->
  v3sub (tra (twv (at_q ab q) k)) (tra (twv ab k)) =
  v3sum n (fun j => if ancb ab j k then v3scale (qk q j - qk (ab_q ab) j) (mlin (Sw ab j)) else v3zero).
Proof.
  intros Hl. pose proof (tree_at_q ab q T Hl) as T'. revert k.
  apply (path_sum ab T v3add v3zero v3add_comm v3add_assoc v3add_zero (fun k => v3sub (tra (twv (at_q ab q) k)) (tra (twv ab k)))).
  intros k Hk. unfold Sw. rewrite (twv_eq ab k), (twv_eq (at_q ab q) k) by auto. change (par (at_q ab q) k) with (par ab k).
  change (tpv (at_q ab q) k) with (T_par_q ab k (qk q k)). change (tpv ab k) with (T_par_q ab k (qk (ab_q ab) k)).
  destruct (slide_at k Hk) as (e & E1 & E). rewrite !E, E1. destruct (par ab k) as [p|] eqn:P.
  - pose proof (par_lt ab T k p Hk P) as Hp. pose proof (slide_rot q p Hl ltac:(lia)) as RR.
    destruct (twv (at_q ab q) p) as [Q' t'], (twv ab p) as [Q t], (rb_T (rb_at ab k)) as [B b]. cbn in RR. subst Q'.
    generalize (qk q k) (qk (ab_q ab) k). intros x y. clear E E1. revert Q t t' B b e x y. vring.
  - change (ab_Tbase (at_q ab q)) with (ab_Tbase ab). generalize (ab_Tbase ab) (rb_T (rb_at ab k)) (qk q k) (qk (ab_q ab) k). vring.
Qed.

Lemma rot_inv_mul A B : rigid A -> rot A = rot B -> seen_from A B = Iso m3id (m3mulv (m3tr (rot A)) (v3sub (tra B) (tra A))).
Proof.
  intros HA E. unfold seen_from. destruct A as [Q t], B as [Q' t']. cbn in E. subst Q'. unfold iso_mul, iso_inv. cbn [rot tra]. f_equal.
  - apply rot_tr_l. exact HA.
  - clear HA. revert Q t t'. vring.
Qed.
Lemma mlin_opp_t (t : v3) (d : motion) : mang d = v3zero -> mact (Iso m3id t) d = d.
Proof. destruct d as [l a]. cbn. intros ->. revert t l. vring. Qed.
Lemma action_slide B dt t l : straight log6 dlog6 ->
  action log6 dlog6 B dt (Iso m3id t) (Mot l v3zero) = imass B / dt * v3dot l t.
Proof.
  intros HS. unfold action. rewrite (st_log _ _ HS). cbn [mlin mang].
  assert (Z : forall x, 0 / x = 0) by (intros x; rewrite (Fdiv_def kfield); ring).
  assert (D : forall x, x / dt = x * kinv dt) by (intros; apply (Fdiv_def kfield)).
  rewrite (st_dlog _ _ HS).
  - cases; vunf.
    rewrite !Z, !D. ring.
  - cases; vunf.
    rewrite !Z, !D. f_equal; ring.
Qed.

Hypothesis HS : straight log6 dlog6.
Hypothesis NL : forall k, (k < n)%nat -> ab_loads ab (Z.of_nat k) = None.
Lemma inert_slide k dt qp qn j : List.length qp = n -> List.length qn = n -> (j < n)%nat -> (k < n)%nat ->
  inert log6 dlog6 ab k dt qp qn (dir ab j k) =
  if ancb ab j k then imass (rb_inertia (rb_at ab k)) / dt * v3dot (mlin (Sw ab j))
       (v3add (v3sub (tra (twv (at_q ab qn) k)) (tra (twv ab k))) (v3sub (tra (twv (at_q ab qp) k)) (tra (twv ab k)))) else 0.
Proof.
  intros Hp Hn Hj Hk. unfold inert. pose proof (twv_rigid ab k R T Hk) as RX.
  assert (RP : rigid (twv (at_q ab qp) k)) by (apply twv_rigid; auto; apply tree_at_q; auto).
  rewrite (dTn_seen ab T R), (dTp_seen ab T R), (dir_eq ab T R) by auto.
  rewrite !rot_inv_mul by (rewrite ?slide_rot; auto). rewrite slide_rot by auto.
  destruct (ancb ab j k); [|rewrite mact_zero, !action_zero; ring].
  assert (E : mact (iso_inv (twv ab k)) (Sw ab j) = Mot (m3mulv (m3tr (rot (twv ab k))) (mlin (Sw ab j))) v3zero).
  { pose proof (slide_Sw j Hj) as Z. destruct (Sw ab j) as [l a]. cbn in Z. subst a. generalize (twv ab k). intros X. cbn [mlin]. revert X l. vring. }
  rewrite E, mlin_opp_t by reflexivity. rewrite !action_slide by auto.
  unfold rigid in RX. rewrite !rot_dot by (apply is_rot_tr; auto).
  generalize (imass (rb_inertia (rb_at ab k)) / dt) (mlin (Sw ab j)) (tra (twv (at_q ab qn) k)) (tra (twv (at_q ab qp) k)) (tra (twv ab k)).
  vring.
Qed.
Lemma v3sum_add m f g : v3add (v3sum m f) (v3sum m g) = v3sum m (fun i => v3add (f i) (g i)).
Proof. induction m; [apply v3add_zero|]. change (v3add (v3add (v3sum m f) (f m)) (v3add (v3sum m g) (g m)) = v3add (v3sum m (fun i => v3add (f i) (g i))) (v3add (f m) (g m))). rewrite <- IHm. generalize (v3sum m f) (v3sum m g) (f m) (g m). vring. Qed.
Lemma v3sum_ext m f g : (forall i, (i < m)%nat -> f i = g i) -> v3sum m f = v3sum m g.
Proof. apply bsum_ext. Qed.
Lemma velv_slide k : (k < n)%nat -> mang (velv ab k) = v3zero.
Proof.
  induction k as [k IH] using lt_wf_ind. intros Hk. unfold velv. rewrite tval_eq by auto. fold (velv ab).
  destruct (slide_at k Hk) as (e & E1 & _). rewrite E1. destruct (par ab k) as [p|] eqn:P.
  - pose proof (par_lt ab T k p Hk P) as Hp. specialize (IH p Hp ltac:(lia)). fold (velv ab p). destruct (velv ab p) as [l a]. cbn in IH. subst a.
    clear E1. generalize (tpv ab k) (qk (ab_dq ab) k). intros X x. revert X x l e. vring.
  - clear E1. generalize (qk (ab_dq ab) k). intros x. revert x e. vring.
Qed.
Lemma ccv_slide k : (k < n)%nat -> ccv ab k = mzero.
Proof.
  induction k as [k IH] using lt_wf_ind. intros Hk. unfold ccv. rewrite tval_eq by auto. destruct (par ab k) as [p|] eqn:P; [|reflexivity].
  pose proof (par_lt ab T k p Hk P) as Hp. fold (ccv ab p). rewrite IH by lia. pose proof (velv_slide k Hk) as V.
  destruct (slide_at k Hk) as (e & E1 & _). rewrite E1. destruct (velv ab k) as [l a]. cbn in V. subst a. clear E1.
  generalize (tpv ab k) (qk (ab_dq ab) k). intros X x. revert X x l e. vring.
Qed.
Lemma Cv_slide i : (i < n)%nat -> Cv ab i = 0.
Proof.
  intros Hi. unfold Cv. rewrite (back_world ab T R) by auto. apply ksum_zero. intros k Hk. destruct (ancb ab i k); auto.
  unfold ccf0. rewrite ccv_slide by auto. pose proof (velv_slide k Hk) as V. destruct (velv ab k) as [l a]. cbn in V. subst a.
  assert (E : fadd (imul (inertia_at ab k) mzero) (fcross (Mot l v3zero) (imul (inertia_at ab k) (Mot l v3zero))) = fzero).
  { generalize (inertia_at ab k). intros B. revert B l. vring. }
  rewrite E, fact_zero, mdot_zero_r. auto.
Qed.

Definition accel (dt : K) (qn : list K) : list K :=
  vec n (fun j => ((qk qn j - qk (ab_q ab) j) / dt - qk (ab_dq ab) j) / dt).
Definition before (dt : K) : list K := vec n (fun j => qk (ab_q ab) j - dt * qk (ab_dq ab) j).
Lemma mang_msum a k : mang (msum n (fun j => if ancb ab j k then mscale (qk a j) (Sw ab j) else mzero)) = v3zero /\
  mlin (msum n (fun j => if ancb ab j k then mscale (qk a j) (Sw ab j) else mzero)) =
  v3sum n (fun j => if ancb ab j k then v3scale (qk a j) (mlin (Sw ab j)) else v3zero).
Proof.
  assert (H : forall m, (m <= n)%nat ->
    mang (msum m (fun j => if ancb ab j k then mscale (qk a j) (Sw ab j) else mzero)) = v3zero /\
    mlin (msum m (fun j => if ancb ab j k then mscale (qk a j) (Sw ab j) else mzero)) =
    v3sum m (fun j => if ancb ab j k then v3scale (qk a j) (mlin (Sw ab j)) else v3zero)).
  { induction m as [|m IH]; intros Hm; [split; reflexivity|]. destruct (IH ltac:(lia)) as [I1 I2].
    change (msum (Datatypes.S m) ?f) with (madd (msum m f) (f m)). change (v3sum (Datatypes.S m) ?f) with (v3add (v3sum m f) (f m)).
    cbn [madd mang mlin]. rewrite I1, I2. pose proof (slide_Sw m ltac:(lia)) as Z. destruct (ancb ab m k).
    - cbn [mscale mang mlin]. rewrite Z. split; [|reflexivity]. generalize (qk a m). vring.
    - split; [|reflexivity]. vring. }
  apply H. auto.
Qed.
Lemma both_ways dt qn k : dt <> 0 -> List.length qn = n -> (k < n)%nat ->
  v3add (v3sub (tra (twv (at_q ab qn) k)) (tra (twv ab k))) (v3sub (tra (twv (at_q ab (before dt)) k)) (tra (twv ab k))) =
  v3scale (dt * dt) (v3sum n (fun j => if ancb ab j k then v3scale (qk (accel dt qn) j) (mlin (Sw ab j)) else v3zero)).
Proof.
  intros Hd Hn Hk. rewrite !slide_tra by (auto; apply vec_length). rewrite v3sum_add.
  assert (Z : forall m f, v3scale (dt * dt) (v3sum m f) = v3sum m (fun i => v3scale (dt * dt) (f i))).
  { induction m; intros f; [cbn; vring|]. change (v3sum (Datatypes.S m) ?g) with (v3add (v3sum m g) (g m)). rewrite <- IHm. generalize (v3sum m f) (f m). vring. }
  rewrite Z. apply v3sum_ext. intros j Hj. destruct (ancb ab j k); [|vring].
  unfold before, accel. rewrite !qk_vec by auto. destruct (mlin (Sw ab j)) as [x y z]. vunf. ext; field; auto.
Qed.
Lemma dval_slide dt qn fe o j : dt <> 0 -> List.length qn = n -> (j < n)%nat ->
  dval ab (before dt) qn dt fe (o_grav o) j = dt * back ab (idf0 ab o (accel dt qn) fe) j.
Proof.
  intros Hd Hn Hj. rewrite (dval_eq log6 dlog6 ab T R) by (auto; apply vec_length).
  rewrite (back_world ab T R) by auto. fold n.
  rewrite (ksum_ext n (fun k => if ancb ab j k then mdot (Sw ab j) (fact (twv ab k) (idf0 ab o (accel dt qn) fe k)) else 0)
    (fun k => ((if ancb ab j k then mdot (Sw ab j) (imul (Iw ab k) (msum n (fun j => if ancb ab j k then mscale (qk (accel dt qn) j) (Sw ab j) else mzero))) else 0) +
      (if ancb ab j k then mdot (Sw ab j) (fact (twv ab k) (ext_f0 ab (twv ab) fe k)) else 0)) +
      ((if o_cc o then if ancb ab j k then mdot (Sw ab j) (fact (twv ab k) (ccf0 ab k)) else 0 else 0) +
      (if o_grav o then if ancb ab j k then mdot (Sw ab j) (fact (twv ab k) (grav_f0 ab (twv ab) k)) else 0 else 0)))).
  2:{ intros k Hk. destruct (ancb ab j k); [|destruct (o_cc o), (o_grav o); ring].
      rewrite (idf0_world ab T R) by auto. rewrite !mdot_add_r. fold n. destruct (o_cc o), (o_grav o); rewrite ?mdot_zero_r; ring. }
  rewrite ksum_add, (ksum_add n (fun k => if o_cc o then _ else 0)).
  assert (Z : forall (b : bool) f, ksum n (fun k => if b then f k else 0) = if b then ksum n f else 0).
  { intros b f. destruct b; auto. apply ksum_zero; auto. }
  rewrite !Z. unfold n. rewrite <- !(back_world ab T R) by auto. fold (Cv ab j) (Gv ab j). fold n.
  rewrite Cv_slide by auto.
  rewrite (ksum_ext n (fun k => inert log6 dlog6 ab k dt (before dt) qn (dir ab j k) - _)
    (fun k => ((if ancb ab j k then mdot (Sw ab j) (imul (Iw ab k) (msum n (fun j => if ancb ab j k then mscale (qk (accel dt qn) j) (Sw ab j) else mzero))) else 0) +
      (if ancb ab j k then mdot (Sw ab j) (fact (twv ab k) (ext_f0 ab (twv ab) fe k)) else 0)) * dt)).
  - rewrite ksum_scale_r. destruct (o_cc o), (o_grav o); ring.
  - intros k Hk. rewrite inert_slide by (auto; apply vec_length). rewrite both_ways by auto.
    pose proof (twv_rigid ab k R T Hk) as RX.
    assert (X : match fe k with Some f => dt * power_at (tra (twv ab k)) f (col (Jall ab k v3zero) j) | None => 0 end =
                - (if ancb ab j k then mdot (Sw ab j) (fact (twv ab k) (ext_f0 ab (twv ab) fe k)) else 0) * dt).
    { unfold ext_f0. destruct (fe k) as [f|].
      - rewrite (power_dir ab T R), fact_inv_r by auto. destruct (ancb ab j k); rewrite ?mdot_opp_r; ring.
      - rewrite fact_zero, mdot_zero_r. destruct (ancb ab j k); ring. }
    rewrite X. destruct (ancb ab j k); [|ring].
    destruct (mang_msum (accel dt qn) k) as [M1 M2]. rewrite <- M2.
    set (m := msum n _) in *. clearbody m. destruct m as [l a]. cbn [mang mlin] in *. subst a. clear M2 X.
    pose proof (slide_Sw j Hj) as M3. destruct (Sw ab j) as [l' a]. cbn [mang mlin] in *. subst a.
    unfold Iw, inertia_at. rewrite NL by auto.
    assert (E : mdot (Mot l' v3zero) (imul (iact (twv ab k) (rb_inertia (rb_at ab k))) (Mot l v3zero)) = imass (rb_inertia (rb_at ab k)) * v3dot l' l).
    { generalize (twv ab k) (rb_inertia (rb_at ab k)). intros X B. clear RX. revert X B l l'. vring. }
    rewrite E. generalize (mdot (Mot l' v3zero) (fact (twv ab k) (ext_f0 ab (twv ab) fe k))) (imass (rb_inertia (rb_at ab k))). intros e m.
    destruct l, l'. vunf. field. auto.
Qed.
End Robot.
End Slide.
