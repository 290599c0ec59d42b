(** Kinetic energy and power in terms of link velocities. *)
From Coq Require Import List Arith ZArith Bool Lia Ring Field.
From Verif Require Import Scalar Base Spatial SpecGeo Joint Body Kin InvDyn FwdDyn Opspace OpspaceAba Deriv Sim Ops Specs SpecCache SpecKin SpecDyn SpatialTac SpatialProofs TreeProofs CacheProofs CacheOps JointProofs BigSum KinProofs WorldProofs DynProofs LoadProofs DynApi.
Import ListNotations.
Section Energy.
Context {S : Scal} {L : ScalLaws S} {PL : PosLaws S}.
Add Field kf : (@kfield S L).
Local Open Scope k_scope.
Variable ab : body.
Hypothesis T : tree_ok ab.
Hypothesis P : proper ab.
Let n := ab_dof ab.
Let Rr : rigid_robot ab := pr_rigid _ P.

Lemma power_sum f0 : ksum n (fun i => qk (ab_dq ab) i * back ab f0 i) = ksum n (fun k => mdot (velv ab k) (f0 k)).
Proof.
  transitivity (ksum n (fun i => ksum n (fun k => if ancb ab i k then qk (ab_dq ab) i * mdot (Sw ab i) (fact (twv ab k) (f0 k)) else 0))).
  - apply ksum_ext. intros i Hi. rewrite (back_world ab T Rr f0 i Hi), <- ksum_scale. apply ksum_ext. intros k _.
    destruct (ancb ab i k); auto. ring.
  - rewrite ksum_swap. apply ksum_ext. intros k Hk. rewrite <- (mdot_act (twv ab k)) by (apply twv_rigid; auto).
    rewrite (vel_world ab T Rr k Hk), mdot_msum. apply ksum_ext. intros i _. rewrite mdot_if_l. destruct (ancb ab i k); auto.
    rewrite mdot_scale_l. auto.
Qed.
Lemma kinetic_sum : List.length (ab_dq ab) = n ->
  quad (mat n n (Av ab)) (ab_dq ab) (ab_dq ab) = ksum n (fun k => mdot (velv ab k) (imul (inertia_at ab k) (velv ab k))).
Proof.
  intros Hl. unfold quad. rewrite Hl, total_ksum.
  transitivity (ksum n (fun i => ksum n (fun j => ksum n (fun k => if ancb ab i k && ancb ab j k then
      qk (ab_dq ab) i * (qk (ab_dq ab) j * mdot (Sw ab i) (imul (Iw ab k) (Sw ab j))) else 0)))).
  - apply ksum_ext. intros i Hi. rewrite total_ksum, <- ksum_scale. apply ksum_ext. intros j Hj.
    rewrite entry_mat by auto. rewrite (A_world ab T Rr (proper_mass _ P) (proper_sym _ P)) by auto.
    change (coef (ab_dq ab) i) with (qk (ab_dq ab) i). change (coef (ab_dq ab) j) with (qk (ab_dq ab) j).
    fold n. rewrite <- ksum_scale_r, <- ksum_scale. apply ksum_ext. intros k _. destruct (_ && _); ring.
  - transitivity (ksum n (fun i => ksum n (fun k => ksum n (fun j => if ancb ab i k && ancb ab j k then
      qk (ab_dq ab) i * (qk (ab_dq ab) j * mdot (Sw ab i) (imul (Iw ab k) (Sw ab j))) else 0)))).
    { apply ksum_ext. intros i _. apply ksum_swap. }
    rewrite ksum_swap. apply ksum_ext. intros k Hk.
    assert (RX : rigid (twv ab k)) by (apply twv_rigid; auto).
    rewrite <- (mdot_act (twv ab k)), <- imul_act by auto. fold (Iw ab k). rewrite (vel_world ab T Rr k Hk), mdot_msum.
    apply ksum_ext. intros i Hi. rewrite mdot_if_l. destruct (ancb ab i k); cbn [andb]; [|apply ksum_zero; auto].
    rewrite mdot_scale_l, imul_msum, mdot_fsum, <- ksum_scale. apply ksum_ext. intros j Hj.
    destruct (ancb ab j k); [rewrite imul_scale, mdot_scale_r; ring|]. rewrite imul_zero, mdot_zero_r. ring.
Qed.
Lemma inertial_power o ddq : o_grav o = false -> o_cc o = true ->
  ksum n (fun i => qk (ab_dq ab) i * back ab (idf0 ab o ddq (fun _ => None)) i) =
  ksum n (fun k => mdot (velv ab k) (imul (inertia_at ab k) (accv ab o ddq k))).
Proof.
  intros Og Oc. rewrite power_sum. apply ksum_ext. intros k Hk. unfold idf0. rewrite Oc. cbn zeta.
  rewrite mdot_add_r.
  assert (E : mdot (velv ab k) (fcross (velv ab k) (imul (inertia_at ab k) (velv ab k))) = 0).
  { assert (F : forall v f, mdot v (fcross v f) = 0); auto. intros v f.
    pose proof (mcross_dual v v f) as X. rewrite mcross_self, mdot_zero_l in X.
    transitivity (- (- mdot v (fcross v f))); [ring|]. rewrite <- X. ring. }
  rewrite E. ring.
Qed.
End Energy.
