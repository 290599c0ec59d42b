(** Over the reals, solid links leave every joint some inertia: the divisions of the
    articulated-body algorithm are never by zero (C18, C19, C59). *)
From Coq Require Import List Arith ZArith Bool Lia Reals Lra.
From Verif Require Import Scalar Base Spatial SpecGeo Joint Body Kin InvDyn FwdDyn Opspace OpspaceAba Deriv Sim Ops Instances Specs SpecCache SpecKin SpecDyn SpecAba SpatialTac SpatialProofs TreeProofs CacheProofs CacheOps JointProofs BigSum KinProofs WorldProofs DynProofs DynApi RealDyn AbaProofs AbaLaws.
Import ListNotations.

Section Firm.
Local Existing Instance RScal.
Ltac rr := repeat match goal with x : @K RScal |- _ => change R in x end; match goal with |- @eq _ ?a ?b => change (@eq R a b) end; cbn; ring.
Ltac runf := vunf; cbn [k0 k1 kadd kmul ksub kdiv kopp kinv RScal].

Definition semi (A : i6) : Prop := forall m : motion, (0 <= mdot m (i6mul A m))%R.
Definition defi (A : i6) : Prop := forall m : motion, m <> mzero -> (0 < mdot m (i6mul A m))%R.

Lemma m_dec (m : motion) : m = mzero \/ m <> mzero.
Proof.
  destruct m as [a b]. destruct (v3_dec a) as [->|H]; [destruct (v3_dec b) as [->|H]; [left; reflexivity|]|]; right; intros E; inversion E; auto.
Qed.
Lemma defi_semi A : defi A -> semi A.
Proof.
  intros H m. destruct (m_dec m) as [->|N]; [|left; apply H; auto]. rewrite (@mdot_zero_l RScal RLaws). cbn. lra.
Qed.
Lemma body_form B m : mdot m (imul B m) =
  kinetic m3id B (Mot (v3add (mlin m) (v3cross (mang m) (icom B))) (mang m)) (Mot (v3add (mlin m) (v3cross (mang m) (icom B))) (mang m)).
Proof. unfold kinetic. destruct B as [M c J]. intros; cases; runf; rr. Qed.
Lemma id_rot : is_rot (@m3id RScal).
Proof. split; [|cbn; ring]. unfold m3mul, m3tr, m3mulv, m3id, v3dot. cbn. f_equal; f_equal; ring. Qed.
Lemma body_semi B m : massive B -> (0 <= mdot m (imul B m))%R.
Proof. intros H. rewrite body_form. apply kinetic_nonneg. auto. Qed.
Lemma body_defi B m : solid B -> m <> mzero -> (0 < mdot m (imul B m))%R.
Proof.
  intros H N. pose proof (body_semi B m (solid_massive _ H)) as Q. destruct Q as [Q|Q]; auto. exfalso. apply N. symmetry in Q.
  rewrite body_form in Q. apply kinetic_pos in Q; auto using id_rot.
  destruct m as [[a b c] [d e f]], (icom B) as [p1 p2 p3]. revert Q. runf. intros Q. injection Q as V1 V2 V3 V4 V5 V6. subst d e f.
  assert (a = 0 /\ b = 0 /\ c = 0)%R as (A1 & A2 & A3) by (repeat split; cbn in *; lra). subst. reflexivity.
Qed.
Lemma link_defi (ab : body) i : proper ab -> firm ab -> (i < ab_dof ab)%nat -> defi (i6_of (inertia_at ab i)).
Proof.
  intros P F Hi m N. rewrite (@i6_of_mul RScal RLaws) by (apply (proper_sym _ P); auto).
  rewrite (bodies_mul ab i m m P Hi). destruct (F i Hi) as (So & Ma & _). unfold bodies_on in *. cbn [map total fold_right kadd RScal].
  pose proof (body_defi _ m So N) as X. inversion Ma as [|B l HB Hl E]; subst.
  pose proof (total_nonneg (fun B => mdot m (imul B m)) _ (fun B HB' => body_semi B m (proj1 (Forall_forall _ _) Hl B HB'))) as Y.
  exact (Rplus_lt_le_0_compat _ _ X Y).
Qed.
(** Cauchy-Schwarz: freeing the joint leaves a semidefinite inertia. *)
Lemma yields_semi A s : i6sym A -> defi A -> s <> mzero -> semi (yields A s).
Proof.
  intros Sy D N m. pose proof (D s N) as d0. unfold yields. rewrite (@i6mul_sub_l RScal RLaws), (@mdot_sub_r RScal RLaws).
  assert (dn : mdot s (i6mul A s) <> (@k0 RScal)) by (cbn in *; lra).
  rewrite (@i6outer_mul RScal RLaws) by auto. rewrite (@mdot_scale_r RScal RLaws).
  set (d := mdot s (i6mul A s)) in *. set (e := mdot m (i6mul A s)).
  pose proof (defi_semi A D (madd m (mscale (- (e / d))%R s))) as Q.
  rewrite (@i6mul_add RScal RLaws), (@i6mul_scale RScal RLaws), (@mdot_add_l RScal RLaws), !(@mdot_add_r RScal RLaws), !(@mdot_scale_l RScal RLaws), !(@mdot_scale_r RScal RLaws) in Q.
  rewrite (@i6mul_sym RScal RLaws A s m) in Q by auto. fold e d in Q. set (c := mdot m (i6mul A m)) in *. clearbody c e d.
  cbn [kadd kmul ksub kdiv kopp RScal k0] in *. change R in c, e, d.
  assert (E : (c + - (e / d) * e + - (e / d) * (e + - (e / d) * d) = c - e / d * e)%R) by (field; exact dn).
  lra.
Qed.
Lemma act_semi X A : rigid X -> semi A -> semi (i6act X A).
Proof. intros Rg H m. rewrite (@i6act_mul RScal RLaws) by auto. rewrite (@mdot_act_r RScal RLaws) by auto. apply H. Qed.

Lemma art_defi (ab : body) : tree_ok ab -> proper ab -> firm ab -> forall i, (i < ab_dof ab)%nat -> defi (IAv ab i).
Proof.
  intros T P F. apply (leaves_ind ab). intros i Hi IH. unfold IAv. rewrite sval_eq by auto. fold (IAv ab).
  assert (G : forall l, (forall c, In c l -> (i < c < ab_dof ab)%nat) ->
    defi (fold_right (fun c acc => i6add acc (i6act (tpv ab c) (yields (IAv ab c) (sub_at ab c)))) (i6_of (inertia_at ab i)) l)).
  { induction l as [|c l IHl]; cbn [fold_right]; intros Hl; [apply link_defi; auto|].
    intros m N. rewrite (@i6mul_add_l RScal RLaws), (@mdot_add_r RScal RLaws).
    assert (Hc : (i < c < ab_dof ab)%nat) by (apply Hl; left; auto).
    pose proof (IHl (fun c' H => Hl c' (or_intror H)) m N) as X1.
    assert (X2 : semi (i6act (tpv ab c) (yields (IAv ab c) (sub_at ab c)))).
    { apply act_semi; [apply tpv_rigid; auto; [apply P|lia]|]. apply yields_semi; [| |apply F; lia].
      - apply (@IAv_sym RScal RLaws ab T); lia.
      - apply IH; auto. }
    exact (Rplus_lt_le_0_compat _ _ X1 (X2 m)). }
  apply G. intros c Hc. apply (child_lt ab T) in Hc; tauto.
Qed.
Lemma firm_positive (ab : body) : tree_ok ab -> proper ab -> firm ab -> forall i, (i < ab_dof ab)%nat -> (0 < joint_inertia ab i)%R.
Proof.
  intros T P F i Hi. rewrite <- dv_joint. unfold dv, hv. apply art_defi; auto. apply F; auto.
Qed.
Lemma firm_articulable (ab : body) : tree_ok ab -> proper ab -> firm ab -> articulable ab.
Proof. intros T P F i Hi E. pose proof (firm_positive ab T P F i Hi) as H. rewrite E in H. exact (Rlt_irrefl _ H). Qed.
End Firm.
