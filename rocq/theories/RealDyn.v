(** Positivity of the inertia matrix over the reals (C13). *)
From Coq Require Import List Arith ZArith Bool Lia Reals Lra.
From Verif Require Import Scalar Base Spatial SpecGeo Joint Body Kin InvDyn FwdDyn Opspace OpspaceAba Deriv Sim Ops Instances Specs SpecCache SpecKin SpecDyn SpatialTac SpatialProofs TreeProofs CacheProofs CacheOps JointProofs BigSum KinProofs WorldProofs DynProofs DynApi.
Import ListNotations.

Section Real.
Variable solve : list (list R) -> list R -> list R.
Variable pinv : list (list R) -> R -> list (list R) * bool.
Local Existing Instance RScal.
Ltac rr := repeat match goal with x : @K RScal |- _ => change R in x end; match goal with |- @eq _ ?a ?b => change (@eq R a b) end; cbn; ring.
Ltac runf := vunf; cbn [k0 k1 kadd kmul ksub kdiv kopp kinv RScal].

Lemma total_nonneg {A} (f : A -> R) l : (forall x, In x l -> (0 <= f x)%R) -> (0 <= @total RScal (map f l))%R.
Proof.
  unfold total. induction l as [|x l IH]; cbn [map fold_right]; intros H; [cbn; lra|]. cbn [kadd RScal].
  pose proof (H x (or_introl eq_refl)). assert (0 <= fold_right (@kadd RScal) (@k0 RScal) (map f l))%R by (apply IH; intros; apply H; right; auto).
  cbn in *. lra.
Qed.
Lemma total_null {A} (f : A -> R) l : (forall x, In x l -> (0 <= f x)%R) -> @total RScal (map f l) = 0%R -> forall x, In x l -> f x = 0%R.
Proof.
  unfold total. induction l as [|y l IH]; cbn [map fold_right In]; intros H E x Hx; [tauto|].
  pose proof (total_nonneg f l (fun z Hz => H z (or_intror Hz))) as P. unfold total in P. cbn [kadd k0 RScal] in *.
  pose proof (H y (or_introl eq_refl)). destruct Hx as [->|Hx]; [lra|]. apply IH; auto. lra.
Qed.
Lemma v3dot_tr (A : m3) (a b : v3) : v3dot a (m3mulv A b) = v3dot (m3mulv (m3tr A) a) b.
Proof. intros; cases; runf; rr. Qed.
Lemma v3sq_nonneg (a : v3) : (0 <= v3dot a a)%R.
Proof. destruct a; runf. nra. Qed.
Lemma v3sq_zero (a : v3) : v3dot a a = 0%R -> a = v3zero.
Proof.
  destruct a as [x y z]; runf. intros H. assert (x = 0 /\ y = 0 /\ z = 0)%R as (-> & -> & ->); [|reflexivity].
  repeat split; nra.
Qed.
Lemma kinetic_nonneg X B a : massive B -> (0 <= kinetic X B a a)%R.
Proof.
  intros [M P]. unfold kinetic. rewrite v3dot_tr. cbn [kadd kmul RScal].
  specialize (P (m3mulv (m3tr X) (mang a))). pose proof (v3sq_nonneg (mlin a)). cbn in *. nra.
Qed.
Lemma v3_dec (a : @v3 RScal) : a = v3zero \/ a <> v3zero.
Proof.
  destruct a as [x y z]. destruct (Req_dec x 0), (Req_dec y 0), (Req_dec z 0); subst; try (left; reflexivity); right; intros E; inversion E; auto.
Qed.
Lemma solid_massive B : solid B -> massive B.
Proof.
  intros [M P]. split; [cbn in *; lra|]. intros v. destruct (v3_dec v) as [->|H].
  - runf. cbn. lra.
  - specialize (P v H). cbn in *; lra.
Qed.
Lemma is_rot_tr_zero (X : m3) a : is_rot X -> m3mulv (m3tr X) a = v3zero -> a = v3zero.
Proof.
  intros H E. assert (F : m3mulv X (m3mulv (m3tr X) a) = a).
  { rewrite <- m3mulv_mul, rot_tr_r by auto. cases; runf. ext; rr. }
  rewrite E in F. rewrite <- F. runf. ext; rr.
Qed.
Lemma kinetic_pos X B a : solid B -> is_rot X -> kinetic X B a a = 0%R -> a = mzero.
Proof.
  intros H RX. pose proof (solid_massive _ H) as [_ P0]. destruct H as [M P]. unfold kinetic. rewrite v3dot_tr. intros E.
  cbn [kadd kmul RScal] in E.
  specialize (P0 (m3mulv (m3tr X) (mang a))). pose proof (v3sq_nonneg (mlin a)) as Q.
  assert (A : v3dot (mlin a) (mlin a) = 0%R) by (cbn in *; nra).
  assert (W : mang a = v3zero).
  { apply (is_rot_tr_zero X); auto. destruct (v3_dec (m3mulv (m3tr X) (mang a))) as [Z|Z]; auto. specialize (P _ Z). cbn in *; nra. }
  apply v3sq_zero in A. destruct a; cbn in *; subst. reflexivity.
Qed.

Definition rel (ab : @body RScal) (x : list R) (k : nat) : motion :=
  msum (ab_dof ab) (fun j => if ancb ab j k then mscale (coef x j) (Sw ab j) else mzero).
Lemma velocity_rel ab k off x : tree_ok ab -> rigid_robot ab -> (k < ab_dof ab)%nat ->
  velocity (Jall ab k off) x = Mot (v3add (mlin (rel ab x k)) (v3cross (mang (rel ab x k)) (Pall ab k off))) (mang (rel ab x k)).
Proof.
  intros T Rr Hk. unfold velocity. rewrite jall_length.
  assert (X : forall m, (m <= ab_dof ab)%nat -> fold_right madd mzero (map (fun j => mscale (coef x j) (col (Jall ab k off) j)) (seq 0 m)) =
     let r := msum m (fun j => if ancb ab j k then mscale (coef x j) (Sw ab j) else mzero) in
     Mot (v3add (mlin r) (v3cross (mang r) (Pall ab k off))) (mang r)).
  { induction m as [|m IH]; intros Hm.
    - generalize (Pall ab k off). intros p. cbn. cases. runf. ext; rr.
    - rewrite seq_S, map_app, fold_right_app. cbn [map fold_right plus].
      assert (Y : forall l (z : motion), fold_right madd z l = madd (fold_right madd mzero l) z).
      { induction l as [|y l IHl]; intros z; cbn [fold_right].
        - cases. runf. ext; rr.
        - rewrite IHl. generalize (fold_right madd (@mzero RScal) l). intros w. cases. runf. ext; rr. }
      rewrite Y, IH by lia. cbn zeta. unfold msum. cbn [bsum]. fold (@msum RScal). fold (@msum RScal m (fun j => if ancb ab j k then mscale (coef x j) (Sw ab j) else mzero)).
      generalize (@msum RScal m (fun j => if ancb ab j k then mscale (coef x j) (Sw ab j) else mzero)). intros r.
      rewrite col_Jall by (auto; lia). destruct (ancb ab m k).
      + generalize (Pall ab k off) (Sw ab m) (coef x m). intros p s c. cases. runf. ext; rr.
      + generalize (Pall ab k off) (coef x m). intros p c. cases. runf. ext; rr. }
  apply X. lia.
Qed.
Lemma rel_step ab x k : tree_ok ab -> (k < ab_dof ab)%nat ->
  rel ab x k = match par ab k with None => mscale (coef x k) (Sw ab k) | Some p => madd (mscale (coef x k) (Sw ab k)) (rel ab x p) end.
Proof.
  intros T Hk.
  assert (aC : forall a b : motion, madd a b = madd b a) by (intros; cases; runf; ext; rr).
  assert (aA : forall a b c : motion, madd a (madd b c) = madd (madd a b) c) by (intros; cases; runf; ext; rr).
  assert (a0 : forall a : motion, madd mzero a = a) by (intros; cases; runf; ext; rr).
  symmetry. pose (X := tval ab (fun i => mscale (coef x i) (Sw ab i)) (fun i v => madd (mscale (coef x i) (Sw ab i)) v)).
  assert (HX : forall i, (i < ab_dof ab)%nat -> X i = match par ab i with None => mscale (coef x i) (Sw ab i) | Some p => madd (mscale (coef x i) (Sw ab i)) (X p) end).
  { intros i Hi. unfold X at 1. rewrite tval_eq by auto. reflexivity. }
  pose proof (path_sum ab T madd mzero aC aA a0 X (fun j => mscale (coef x j) (Sw ab j)) HX) as Y.
  unfold rel, msum. rewrite <- (Y k Hk). rewrite (HX k Hk). destruct (par ab k) as [p|] eqn:E; auto. f_equal. symmetry. apply Y.
  pose proof (tree_par _ _ _ T Hk E). lia.
Qed.
Lemma rel_zero ab x : tree_ok ab -> rigid_robot ab -> (forall k, (k < ab_dof ab)%nat -> sub_at ab k <> mzero) ->
  (forall k, (k < ab_dof ab)%nat -> rel ab x k = mzero) -> forall k, (k < ab_dof ab)%nat -> coef x k = 0%R.
Proof.
  intros T Rr HS HZ k Hk. pose proof (rel_step ab x k T Hk) as E. rewrite (HZ k Hk) in E.
  assert (F : mscale (coef x k) (Sw ab k) = mzero).
  { destruct (par ab k) as [p|] eqn:Ep; [|auto]. pose proof (tree_par _ _ _ T Hk Ep). rewrite (HZ p) in E by lia.
    rewrite E. generalize (mscale (coef x k) (Sw ab k)). intros m. cases; runf; ext; rr. }
  destruct (Req_dec (@coef RScal x k) 0) as [Z|Z]; auto. exfalso. apply (HS k Hk).
  assert (G : Sw ab k = mzero).
  { revert F. generalize (Sw ab k) (@coef RScal x k) Z. intros m c Zc. destruct m as [[a b c'] [d e f]]. runf. intros F. injection F as F1 F2 F3 F4 F5 F6.
    assert (I : forall u, (c * u = 0)%R -> u = 0%R) by (intros u Hu; apply Rmult_integral in Hu; destruct Hu; [contradiction|auto]).
    apply I in F1, F2, F3, F4, F5, F6. subst. reflexivity. }
  unfold Sw in G. rewrite <- (mact_inv_l (twv ab k) (sub_at ab k)) by (apply twv_rigid; auto). rewrite G. apply mact_zero.
Qed.

Lemma c13 h ab : reached solve pinv h ab -> base_fixed false h = true -> proper ab ->
  (forall k, (k < ab_dof ab)%nat -> Forall massive (bodies_on ab k)) ->
  exists J O A, jacobians ab J /\ orientations ab O /\ outcome (ask solve pinv QInertia ab) = Ok (AMat A) /\
    (forall x, List.length x = ab_dof ab -> (0 <= quad A x x)%R /\
       (quad A x x = 0%R -> forall k B, (k < ab_dof ab)%nat -> In B (bodies_on ab k) ->
          kinetic (O k) B (velocity (J k (icom B)) x) (velocity (J k (icom B)) x) = 0%R)) /\
    ((forall k, (k < ab_dof ab)%nat -> Forall solid (bodies_on ab k) /\ jsub (rb_joint (nth k (ab_rbs ab) rb_default)) <> mzero) ->
      (forall x, List.length x = ab_dof ab -> quad A x x = 0%R -> forall i, (i < ab_dof ab)%nat -> coef x i = 0%R) /\
      injective (ab_dof ab) A).
Proof.
  intros Rh B P HM. destruct (@c12 RScal RLaws RPos solve pinv h ab Rh B P) as (J0 & O0 & A & HJ0 & HO0 & HA & HSq & HE & HQ0).
  destruct (reached_wfc _ _ _ _ Rh B) as [T W].
  assert (HQ : forall x y : list R, List.length x = ab_dof ab -> List.length y = ab_dof ab ->
       quad A x y = over_bodies ab (fun k B => kinetic (Oall ab k) B (velocity (Jall ab k (icom B)) x) (velocity (Jall ab k (icom B)) y))).
  { intros x y Hx Hy. rewrite HQ0 by auto. apply over_bodies_ext. intros k B0 Hk _.
    pose proof (HJ0 k (icom B0) Hk) as E1. rewrite (Jall_ok ab T k (icom B0) Hk) in E1. injection E1 as E1.
    pose proof (HO0 k Hk) as E2. rewrite (Oall_ok ab T k Hk) in E2. injection E2 as E2. rewrite <- E1, <- E2. reflexivity. }
  clear HE HQ0 HJ0 HO0 J0 O0.
  assert (HN : forall x : list R, forall k B0, (k < ab_dof ab)%nat -> In B0 (bodies_on ab k) ->
     (0 <= kinetic (Oall ab k) B0 (velocity (Jall ab k (icom B0)) x) (velocity (Jall ab k (icom B0)) x))%R).
  { intros x k B0 Hk HB. apply kinetic_nonneg. specialize (HM k Hk). rewrite Forall_forall in HM. auto. }
  assert (H1 : forall x, List.length x = ab_dof ab -> (0 <= quad A x x)%R /\
       (quad A x x = 0%R -> forall k B, (k < ab_dof ab)%nat -> In B (bodies_on ab k) ->
          kinetic (Oall ab k) B (velocity (Jall ab k (icom B)) x) (velocity (Jall ab k (icom B)) x) = 0%R)).
  { intros x Hx. rewrite HQ by auto. unfold over_bodies, over_links. split.
    - apply total_nonneg. intros k Hk. apply in_seq in Hk. apply total_nonneg. intros B0 HB. apply HN; auto; lia.
    - intros E k B0 Hk HB.
      pose (f := fun k0 B1 => @kinetic RScal (Oall ab k0) B1 (velocity (Jall ab k0 (icom B1)) x) (velocity (Jall ab k0 (icom B1)) x)).
      assert (E2 : @total RScal (map (f k) (bodies_on ab k)) = 0%R).
      { apply (total_null (fun k0 => @total RScal (map (f k0) (bodies_on ab k0))) (seq 0 (ab_dof ab))); [|exact E|apply in_seq; lia].
        intros k0 Hk0. apply in_seq in Hk0. apply total_nonneg. intros B1 HB1. apply HN; auto; lia. }
      apply (total_null (f k) (bodies_on ab k)); auto. intros B1 HB1. apply HN; auto. }
  exists (Jall ab), (Oall ab), A. split; [apply Jall_ok; auto|]. split; [apply Oall_ok; auto|]. split; [exact HA|]. split; [exact H1|].
  intros HS. assert (D : forall x, List.length x = ab_dof ab -> quad A x x = 0%R -> forall i, (i < ab_dof ab)%nat -> coef x i = 0%R).
  { intros x Hx E. apply (rel_zero ab x); auto; [apply P|intros k Hk; apply HS; auto|].
    intros k Hk. destruct (H1 x Hx) as [_ H2]. destruct (HS k Hk) as [HSo _]. unfold bodies_on in *.
    pose proof (Forall_inv HSo) as Hso.
    specialize (H2 E k _ Hk (or_introl eq_refl)). apply kinetic_pos in H2; auto; [|apply (twv_rigid ab k (pr_rigid _ P) T); auto].
    rewrite velocity_rel in H2 by (auto; apply P). revert H2.
    generalize (rel ab x k) (Pall ab k (icom (rb_inertia (nth k (ab_rbs ab) rb_default)))). intros r p.
    destruct r as [[a b c] [d e f]], p as [p1 p2 p3]. runf. intros H2. injection H2 as V1 V2 V3 V4 V5 V6. subst d e f.
    assert (a = 0 /\ b = 0 /\ c = 0)%R as (A1 & A2 & A3) by (repeat split; cbn in *; lra). subst. reflexivity. }
  split; [exact D|]. intros x Hx HZ. apply D; auto. unfold quad.
  apply (@total_zero RScal RLaws). intros i Hi. apply in_seq in Hi. rewrite Hx.
  change (@total RScal (map (fun j => @kmul RScal (entry A i j) (coef x j)) (seq 0 (ab_dof ab)))) with (row_times (ab_dof ab) A x i).
  rewrite HZ by lia. rr.
Qed.
End Real.
