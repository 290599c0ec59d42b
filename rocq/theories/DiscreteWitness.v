(** Witnesses for the refuted claims about discrete dynamics (C50). *)
From Coq Require Import List Arith ZArith Bool String QArith Qcanon Floats.SpecFloat Lia.
From Verif Require Import Scalar Base Spatial SpecGeo Joint Body Kin InvDyn FwdDyn Opspace OpspaceAba Deriv Sim Ops Discrete Instances Specs SpecCache SpecKin SpecDyn SpecDiscrete Samples Checks OpsCache DiscreteProofs DiscreteTravel DiscreteSamples PropControl.
Import ListNotations.
Local Open Scope k_scope.
Local Notation DID := (q_DiscreteID log_s dlog_s).
Local Notation DI := (q_DiscreteIntegrate solve_i log_s dlog_s sumsq).

Definition dvec (r : res (list (@K QcScal))) : list (@K QcScal) := match r with Ok l => l | _ => [] end.
Lemma dvec_ok r : match r with Ok _ => true | _ => false end = true -> r = Ok (dvec r).
Proof. destruct r; try discriminate; auto. Qed.
Lemma frac_neq (x y : @K QcScal) : frac x <> frac y -> x <> y.
Proof. intros H E. apply H. rewrite E. reflexivity. Qed.
Lemma res_pair {A B} (r : res (A * B)) (d : A * B) : match r with Ok _ => true | _ => false end = true ->
  r = Ok (fst (match r with Ok p => p | _ => d end), snd (match r with Ok p => p | _ => d end)).
Proof. destruct r as [[a b]| |]; try discriminate; auto. Qed.
Definition stepped (r : res (@body QcScal * bool)) : @body QcScal := match r with Ok (ab, _) => ab | _ => body_new "none" (junk (qz 0)) end.
Lemma stepped_ok r b : match r with Ok (_, b') => Bool.eqb b b' | _ => false end = true -> r = Ok (stepped r, b).
Proof. destruct r as [[a b']| |]; try discriminate. intros H. apply eqb_prop in H. subst; auto. Qed.

Definition loaded : list (@dop QcScal) := cart1 ++ [DOp (OAddLoad (q_inertia 1) 0)].
Definition r_load : @body QcScal := drobot solve_i log_s dlog_s loaded 7.
Definition r_cart : @body QcScal := drobot solve_i log_s dlog_s cart1 7.
Definition moved : list (@dop QcScal) := cart1 ++ [go 1 3].
Definition r_moved : @body QcScal := drobot solve_i log_s dlog_s moved 7.

Lemma loads_refuted : exists h (ab : @body QcScal) qn dt o v tau,
  dreached solve_i pinv0 log_s dlog_s sumsq h ab /\ dbase_fixed false h = true /\ no_integration h = true /\
  proper ab /\ proper_joints ab /\ sliding_joints ab /\ @straight QcScal log_s dlog_s /\ o_fric o = false /\
  outcome (DID qn dt none (o_grav o) ab) = Ok v /\ outcome (ask solve_i pinv0 (QID (acceleration_to ab dt qn) none o) ab) = Ok (AVec tau) /\
  coef v 0 <> dt * coef tau 0.
Proof.
  exists loaded, r_load, [qz 5], (qz 1), (IdOpts false true false k0),
    (dvec (outcome (DID [qz 5] (qz 1) none false r_load))),
    (answer_vec (outcome (ask solve_i pinv0 (QID (acceleration_to r_load (qz 1) [qz 5]) none (IdOpts false true false k0)) r_load))).
  split; [apply drobot_reached; vm_compute; reflexivity|]. split; [reflexivity|]. split; [reflexivity|].
  split; [apply properb_ok; vm_compute; reflexivity|]. split; [apply proper_jointsb_ok; vm_compute; reflexivity|]. split; [apply slidingb_ok; vm_compute; reflexivity|].
  split; [apply straight_s|]. split; [reflexivity|]. split; [apply dvec_ok; vm_compute; reflexivity|]. split; [apply answer_vec_ok; vm_compute; reflexivity|].
  apply frac_neq. vm_compute. discriminate.
Qed.
Lemma memory_refuted : exists h (ab : @body QcScal) mem qn dt fe grav,
  dreached solve_i pinv0 log_s dlog_s sumsq h ab /\ dbase_fixed false h = true /\ dts_ok h /\ told_apart dt /\
  outcome (DID qn dt fe grav ab) <> outcome (DID qn dt fe grav (cold ab mem)).
Proof.
  exists moved, r_moved, (junk (qz 7)), [qz 4], (qz 1), none, false.
  split; [apply drobot_reached; vm_compute; reflexivity|]. split; [reflexivity|]. split; [apply dts_all|]. split; [apply apart|].
  apply dfracs_neq. vm_compute. discriminate.
Qed.
Lemma query_refuted : exists h (ab ab' : @body QcScal) v qn2 dt2 qn dt,
  dreached solve_i pinv0 log_s dlog_s sumsq h ab /\ DID qn2 dt2 none false ab = Ok (ab', v) /\
  outcome (DID qn dt none false ab) <> outcome (DID qn dt none false ab').
Proof.
  exists moved, r_moved. do 2 eexists. exists [qz 0], (qz 2), [qz 4], (qz 1).
  split; [apply drobot_reached; vm_compute; reflexivity|]. split; [apply (res_pair _ (r_moved, [])); vm_compute; reflexivity|].
  apply dfracs_neq. vm_compute. discriminate.
Qed.
Lemma unconverged_refuted : exists h (ab ab' : @body QcScal) tau dt eps cap qn mem,
  dreached solve_i pinv0 log_s dlog_s sumsq h ab /\ dbase_fixed false h = true /\ no_integration h = true /\
  DI tau dt none false eps cap ab = Ok (ab', false) /\
  outcome (DID qn dt none false ab') <>
  outcome (DID qn dt none false (restart ab' (ab_q ab') (vmap2 (ab_dof ab) (fun x y => (x - y) / dt) (ab_q ab') (ab_q ab)) mem)).
Proof.
  exists loaded, r_load, (stepped (DI [qz 2] (qz 1) none false (qq 1 1000) 1 r_load)), [qz 2], (qz 1), (qq 1 1000), 1%nat, [qz 4], (junk (qz 7)).
  split; [apply drobot_reached; vm_compute; reflexivity|]. split; [reflexivity|]. split; [reflexivity|].
  split; [apply stepped_ok; vm_compute; reflexivity|]. apply dfracs_neq. vm_compute. discriminate.
Qed.
Definition stuck : list (@dop QcScal) := cart1 ++ [go 1 0].
Lemma no_iterations_refuted : exists h name (mem1 mem2 : @cache QcScal) ab1 ab2,
  drun solve_i pinv0 log_s dlog_s sumsq h (body_new name mem1) = Some ab1 /\ drun solve_i pinv0 log_s dlog_s sumsq h (body_new name mem2) = Some ab2 /\
  dbase_fixed false h = true /\ ab_q ab1 = ab_q ab2 /\ ab_dq ab1 <> ab_dq ab2.
Proof.
  assert (X : forall x, is_some (drun solve_i pinv0 log_s dlog_s sumsq stuck (body_new "r" x)) = true ->
    drun solve_i pinv0 log_s dlog_s sumsq stuck (body_new "r" x) = Some (match drun solve_i pinv0 log_s dlog_s sumsq stuck (body_new "r" x) with Some a => a | None => body_new "r" x end)).
  { intros x H. destruct (drun _ _ _ _ _ _ _); [auto|discriminate]. }
  pose (m := fun x => let m := @junk QcScal (qz 1) in let d := ca_dr m in
    with_dr m (DD [qz x] (qz 1) true (d_Tprev d) (d_pprev d) true (d_Tnext d) (d_p d) (d_dp d))).
  exists stuck, "r"%string, (m 1%Z), (m 5%Z). do 2 eexists.
  split; [apply X; vm_compute; reflexivity|]. split; [apply X; vm_compute; reflexivity|]. split; [reflexivity|]. split.
  - apply (@veqb_sound QcScal _). vm_compute. reflexivity.
  - intros E. apply (f_equal (map frac)) in E. vm_compute in E. discriminate E.
Qed.
Lemma velocity_refuted : exists h (ab ab' : @body QcScal) tau dt eps cap a,
  dreached solve_i pinv0 log_s dlog_s sumsq h ab /\ dbase_fixed false h = true /\ no_integration h = true /\
  proper ab /\ proper_joints ab /\ sliding_joints ab /\ (forall k, (k < ab_dof ab)%nat -> ab_loads ab (Z.of_nat k) = None) /\ @straight QcScal log_s dlog_s /\
  outcome (ask solve_i pinv0 (QFD tau none (IdOpts false true false k0)) ab) = Ok (AVec a) /\
  DI tau dt none false eps cap ab = Ok (ab', true) /\
  coef (ab_q ab') 0 = coef (ab_q ab) 0 + dt * (coef (ab_dq ab) 0 + dt * coef a 0) /\
  coef (ab_dq ab') 0 <> coef (ab_dq ab) 0 + dt * coef a 0.
Proof.
  exists cart1, r_cart, (stepped (DI [qz 1] (qz 1) none false (qq 1 1000) 3 r_cart)), [qz 1], (qz 1), (qq 1 1000), 3%nat,
    (answer_vec (outcome (ask solve_i pinv0 (QFD [qz 1] none (IdOpts false true false k0)) r_cart))).
  split; [apply drobot_reached; vm_compute; reflexivity|]. split; [reflexivity|]. split; [reflexivity|].
  split; [apply properb_ok; vm_compute; reflexivity|]. split; [apply proper_jointsb_ok; vm_compute; reflexivity|]. split; [apply slidingb_ok; vm_compute; reflexivity|].
  split; [apply no_loadb_ok; vm_compute; reflexivity|]. split; [apply straight_s|]. split; [apply answer_vec_ok; vm_compute; reflexivity|].
  split; [apply stepped_ok; vm_compute; reflexivity|]. split; [apply keq_sound; vm_compute; reflexivity|]. apply frac_neq. vm_compute. discriminate.
Qed.
