(** Discrete dynamics through the API (C47, C49, C50). *)
From Coq Require Import List Arith ZArith Bool Lia Field.
From Verif Require Import Scalar Base Spatial SpecGeo SpatialTac SpatialProofs Joint Body Kin InvDyn FwdDyn Opspace OpspaceAba Deriv Sim Ops Discrete Specs SpecCache SpecKin SpecDyn SpecDiscrete TreeProofs CacheProofs CacheOps OpsCache KinProofs WorldProofs DynProofs DynApi AbaLaws BigSum DiscreteCache DiscreteProofs DiscreteTravel DiscreteLaws DiscreteSlide.
Import ListNotations.

Section Api.
Context {S : Scal} {L : ScalLaws S} {ES : EqSound S}.
Add Field kf : (@kfield S L).
Variable solve : list (list K) -> list K -> list K.
Variable pinv : list (list K) -> K -> list (list K) * bool.
Variable log6 : iso -> motion.
Variable dlog6 : iso -> i6.
Variable norm : list K -> K.
Local Open Scope k_scope.
Local Notation dval := (dval log6 dlog6).
Local Notation DID := (q_DiscreteID log6 dlog6).
Local Notation dreached := (dreached solve pinv log6 dlog6 norm).
Local Notation past ab dt := (vmap2 (ab_dof ab) (fun x v => x - dt * v) (ab_q ab) (ab_dq ab)).

Lemma ready_out dt qp ab qn fe grav : ready log6 dlog6 dt qp ab -> List.length qn = ab_dof ab ->
  outcome (DID qn dt fe grav ab) = Ok (vec (ab_dof ab) (dval ab qp qn dt fe grav)).
Proof.
  intros (T & c & Ec & V & D & Q) Hn. rewrite (did_out log6 dlog6 qn dt fe grav ab c) by (auto; apply apart). rewrite Q, Hn, Nat.ltb_irrefl. auto.
Qed.
Lemma restart_ready ab q dq dt mem : tree_ok ab -> List.length q = ab_dof ab -> List.length dq = ab_dof ab ->
  ready log6 dlog6 dt (vmap2 (ab_dof ab) (fun x v => x - dt * v) q dq) (restart ab q dq mem).
Proof.
  intros T H1 H2. split; [apply (tree_same ab); auto; cbn; eauto|]. exists (all_clear mem). split; [reflexivity|].
  split; [apply inv_all_clear|]. split; [apply dri_clear|]. reflexivity.
Qed.
Lemma dreached_ok h ab : dreached h ab -> dbase_fixed false h = true -> no_integration h = true -> tree_ok ab /\ wfc ab.
Proof.
  intros Re Hb Hn. destruct (dreached_inv solve pinv log6 dlog6 norm (AC := laws_comm) h ab Re Hb Hn (dts_all h)) as (T & W & _). auto.
Qed.

Lemma c47_value h ab qn dt fe grav X Xp Xn J G : dreached h ab -> dbase_fixed false h = true -> no_integration h = true ->
  rigid_robot ab -> List.length qn = ab_dof ab ->
  posed ab (ab_q ab) X -> posed ab (past ab dt) Xp -> posed ab qn Xn -> jacobians ab J ->
  outcome (ask solve pinv QGrav ab) = Ok (AVec G) ->
  exists v, outcome (DID qn dt fe grav ab) = Ok v /\ List.length v = ab_dof ab /\
  forall j, (j < ab_dof ab)%nat ->
    coef v j = over_links ab (fun k =>
        let B := rb_inertia (nth k (ab_rbs ab) rb_default) in
        let d := in_axes (X k) (col (J k v3zero) j) in
        action log6 dlog6 B dt (seen_from (X k) (Xn k)) d -
        action log6 dlog6 B dt (seen_from (Xp k) (X k)) (mact (seen_from (Xp k) (X k)) d) -
        match fe k with Some f => dt * power_at (tra (X k)) f (col (J k v3zero) j) | None => 0 end) +
      (if grav then dt * coef G j else 0).
Proof.
  intros Re Hb Hn R Hl HX HXp HXn HJ HG. destruct (dreached_ok h ab Re Hb Hn) as [T W].
  pose proof (ready_start solve pinv log6 dlog6 norm h ab dt Re Hb Hn) as RD.
  cbn [ask] in HG. rewrite outcome_wrap, (out_Grav ab T W) in HG. cbn in HG. inversion HG; subst G; clear HG.
  exists (vec (ab_dof ab) (dval ab (past ab dt) qn dt fe grav)). split; [apply ready_out; auto|]. split; [apply vec_length|].
  intros j Hj. rewrite !coef_vec by auto. rewrite (dval_eq log6 dlog6 ab T R) by (auto; apply vmap2_length).
  unfold over_links. rewrite total_ksum. f_equal. apply ksum_ext. intros k Hk.
  assert (EJ : J k v3zero = Jall ab k v3zero).
  { pose proof (Jall_ok ab T k v3zero Hk) as E. rewrite (HJ k v3zero Hk) in E. inversion E; auto. }
  rewrite EJ, (posed_now ab X k T HX Hk), (posed_at ab _ Xp k T (vmap2_length _ _ _ _) HXp Hk), (posed_at ab qn Xn k T Hl HXn Hk).
  unfold inert. rewrite (dTn_seen ab T R), (dTp_seen ab T R) by (auto; apply vmap2_length). reflexivity.
Qed.

Lemma c47_impulses h ab qn dt fe (grav : bool) : dreached h ab -> dbase_fixed false h = true -> no_integration h = true ->
  rigid_robot ab -> List.length qn = ab_dof ab ->
  exists X Xp Xn J G v, posed ab (ab_q ab) X /\ posed ab (past ab dt) Xp /\ posed ab qn Xn /\ jacobians ab J /\
    outcome (ask solve pinv QGrav ab) = Ok (AVec G) /\ outcome (DID qn dt fe grav ab) = Ok v /\ List.length v = ab_dof ab /\
  forall j, (j < ab_dof ab)%nat ->
    coef v j = over_links ab (fun k =>
        let B := rb_inertia (nth k (ab_rbs ab) rb_default) in
        let d := in_axes (X k) (col (J k v3zero) j) in
        action log6 dlog6 B dt (seen_from (X k) (Xn k)) d -
        action log6 dlog6 B dt (seen_from (Xp k) (X k)) (mact (seen_from (Xp k) (X k)) d) -
        match fe k with Some f => dt * power_at (tra (X k)) f (col (J k v3zero) j) | None => 0 end) +
      (if grav then dt * coef G j else 0).
Proof.
  intros Re Hb Hn R Hl. destruct (dreached_ok h ab Re Hb Hn) as [T W].
  assert (HG : outcome (ask solve pinv QGrav ab) = Ok (AVec (vec (ab_dof ab) (Gv ab)))) by (cbn [ask]; rewrite outcome_wrap, (out_Grav ab T W); reflexivity).
  pose proof (posed_ex ab (ab_q ab) T (tk_q _ T)) as HX. pose proof (posed_ex ab (past ab dt) T (vmap2_length _ _ _ _)) as HXp.
  pose proof (posed_ex ab qn T Hl) as HXn. pose proof (Jall_ok ab T) as HJ.
  destruct (c47_value h ab qn dt fe grav _ _ _ _ _ Re Hb Hn R Hl HX HXp HXn HJ HG) as (v & V1 & V2 & V3).
  do 6 eexists. split; [exact HX|]. split; [exact HXp|]. split; [exact HXn|]. split; [exact HJ|]. split; [exact HG|]. eauto.
Qed.
(** ** C49 *)
Lemma c49_reversal h ab a b dt fe grav mem : dreached h ab -> dbase_fixed false h = true -> no_integration h = true ->
  rigid_robot ab -> reversible log6 dlog6 -> List.length a = ab_dof ab -> List.length b = ab_dof ab ->
  let n := ab_dof ab in let q := ab_q ab in
  outcome (DID (vmap2 n (fun x v => x + dt * v) q b) dt fe grav (restart ab q a mem)) =
  outcome (DID (vmap2 n (fun x v => x - dt * v) q a) dt fe grav (restart ab q (map kopp b) mem)).
Proof.
  intros Re Hb Hn R V La Lb n q. destruct (dreached_ok h ab Re Hb Hn) as [T W].
  assert (Lq : List.length q = n) by apply T.
  rewrite (ready_out dt _ (restart ab q a mem) _ fe grav (restart_ready ab q a dt mem T Lq La)) by apply vmap2_length.
  assert (Lb' : List.length (map kopp b) = ab_dof ab) by (rewrite map_length; auto).
  rewrite (ready_out dt _ (restart ab q (map kopp b) mem) _ fe grav (restart_ready ab q (map kopp b) dt mem T Lq Lb')) by apply vmap2_length.
  f_equal. cbn [ab_dof restart]. apply vec_ext. intros j Hj.
  assert (E : vmap2 (ab_dof ab) (fun x v => x - dt * v) q (map kopp b) = vmap2 n (fun x v => x + dt * v) q b).
  { apply vec_ext. intros i Hi. unfold coef. rewrite (nth_indep (map kopp b) 0 (kopp 0)) by (rewrite Lb'; auto). rewrite map_nth. ring. }
  rewrite E.
  change (dval (restart ab q (map kopp b) mem)) with (dval (restart ab q a mem)).
  apply (dval_back log6 dlog6 (restart ab q a mem)); auto.
  - apply (restart_ready ab q a dt mem T Lq La).
  - apply vmap2_length.
  - apply vmap2_length.
Qed.

Lemma seen_self X : rigid X -> seen_from X X = iso_id.
Proof. apply iso_inv_l. Qed.
Lemma action_rest B dt d : log6 iso_id = mzero -> action log6 dlog6 B dt iso_id d = 0.
Proof.
  intros E. unfold action. rewrite E. cbn [mlin mang mzero]. assert (Z : v3div v3zero dt = v3zero).
  { unfold v3div, v3zero. cbn. rewrite (Fdiv_def kfield). f_equal; ring. }
  rewrite Z. change (Mot v3zero v3zero) with mzero. rewrite imul_zero, mdot_zero_r. auto.
Qed.
Lemma dval_rest ab dt fe grav j : tree_ok ab -> rigid_robot ab -> log6 iso_id = mzero -> (j < ab_dof ab)%nat ->
  dval ab (ab_q ab) (ab_q ab) dt fe grav j = dt * (Extv ab fe j + (if grav then Gv ab j else 0)).
Proof.
  intros T R E Hj. assert (Lq : List.length (ab_q ab) = ab_dof ab) by apply T.
  rewrite (dval_eq log6 dlog6 ab T R) by auto.
  assert (EX : ksum (ab_dof ab) (fun k => inert log6 dlog6 ab k dt (ab_q ab) (ab_q ab) (dir ab j k) -
     match fe k with Some f => dt * power_at (tra (twv ab k)) f (col (Jall ab k v3zero) j) | None => 0 end) = dt * Extv ab fe j).
  { unfold Extv. rewrite (back_world ab T R) by auto. rewrite <- ksum_scale. apply ksum_ext. intros k Hk.
    pose proof (twv_rigid ab k R T Hk) as RX.
    assert (Z : inert log6 dlog6 ab k dt (ab_q ab) (ab_q ab) (dir ab j k) = 0).
    { unfold inert. rewrite (dTn_seen ab T R), (dTp_seen ab T R) by auto.
      replace (at_q ab (ab_q ab)) with ab by (destruct ab; reflexivity). rewrite seen_self, !action_rest by auto. ring. }
    rewrite Z. unfold ext_f0. destruct (fe k) as [f|].
    - rewrite (power_dir ab T R), fact_inv_r by auto. destruct (ancb ab j k); rewrite ?mdot_opp_r; ring.
    - rewrite fact_zero, mdot_zero_r. destruct (ancb ab j k); ring. }
  rewrite EX. destruct grav; ring.
Qed.
Lemma past_rest ab dt : tree_ok ab -> (forall j, (j < ab_dof ab)%nat -> coef (ab_dq ab) j = 0) -> past ab dt = ab_q ab.
Proof.
  intros T H. assert (Lq : List.length (ab_q ab) = ab_dof ab) by apply T.
  eapply eq_trans; [|symmetry; apply (list_eq_vec (ab_q ab) (ab_dof ab) Lq)]. apply vec_ext. intros i Hi. rewrite H by auto. unfold coef, qk. ring.
Qed.
Lemma c49_rest h ab dt fe grav G E : dreached h ab -> dbase_fixed false h = true -> no_integration h = true ->
  rigid_robot ab -> log6 iso_id = mzero -> (forall j, (j < ab_dof ab)%nat -> coef (ab_dq ab) j = 0) ->
  outcome (ask solve pinv QGrav ab) = Ok (AVec G) -> outcome (ask solve pinv (QExt fe) ab) = Ok (AVec E) ->
  exists v, outcome (DID (ab_q ab) dt fe grav ab) = Ok v /\ List.length v = ab_dof ab /\
  forall j, (j < ab_dof ab)%nat -> coef v j = dt * (coef E j + (if grav then coef G j else 0)).
Proof.
  intros Re Hb Hn R EL Hdq HG HE. destruct (dreached_ok h ab Re Hb Hn) as [T W].
  pose proof (ready_start solve pinv log6 dlog6 norm h ab dt Re Hb Hn) as RD. rewrite past_rest in RD by auto.
  cbn [ask] in HG, HE. rewrite outcome_wrap, (out_Grav ab T W) in HG. rewrite outcome_wrap, (out_Ext ab T W) in HE. cbn in HG, HE.
  inversion HG; subst G. inversion HE; subst E. eexists. split; [apply ready_out; [eauto|apply T]|]. split; [apply vec_length|].
  intros j Hj. rewrite !coef_vec by auto. apply dval_rest; auto.
Qed.

Lemma c49_sliding {PL : PosLaws S} h ab qn dt fe o : dreached h ab -> dbase_fixed false h = true -> no_integration h = true ->
  proper ab -> proper_joints ab -> sliding_joints ab -> (forall k, (k < ab_dof ab)%nat -> ab_loads ab (Z.of_nat k) = None) ->
  straight log6 dlog6 -> dt <> 0 -> List.length qn = ab_dof ab -> o_fric o = false ->
  exists v tau, outcome (DID qn dt fe (o_grav o) ab) = Ok v /\ outcome (ask solve pinv (QID (acceleration_to ab dt qn) fe o) ab) = Ok (AVec tau) /\
  forall j, (j < ab_dof ab)%nat -> coef v j = dt * coef tau j.
Proof.
  intros Re Hb Hn P PJ SJ NL HS Hd Hl Ho. destruct (dreached_ok h ab Re Hb Hn) as [T W].
  pose proof (ready_start solve pinv log6 dlog6 norm h ab dt Re Hb Hn) as RD.
  do 2 eexists. split; [apply (ready_out dt _ ab qn fe (o_grav o) RD Hl)|].
  cbn [ask]. rewrite outcome_wrap, (out_ID ab T W) by auto. replace (List.length (acceleration_to ab dt qn)) with (ab_dof ab) by (symmetry; apply vec_length). rewrite Nat.eqb_refl. cbn [bind].
  split; [reflexivity|]. intros j Hj. rewrite !coef_vec by auto. unfold plus_friction. rewrite Ho.
  change (past ab dt) with (before ab dt). rewrite (dval_slide log6 dlog6 ab T (pr_rigid _ P) PJ SJ HS NL) by auto.
  rewrite (id_decomp ab T (pr_rigid _ P) (proper_mass _ P) (proper_sym _ P)) by auto. reflexivity.
Qed.
End Api.
