(** C18, C19, C23 (articulated-body algorithm, solid links) and C60 (friction), over the
    reals *)
From Coq Require Import List Arith ZArith Bool String Reals Lra Lia.
From Verif Require Import Scalar Base Spatial SpecGeo Joint Body Kin InvDyn FwdDyn Opspace OpspaceAba Deriv Sim Ops Instances Specs SpecCache SpecKin SpecDyn SpecAba SpecReal SpecSim SpecFric Samples TreeProofs CacheOps RealCalc RealMotion RealEnergy RealDyn DynApi AbaApi FirmProofs FricProofs PropCache PropDyn PropReal.
Import ListNotations.
Local Existing Instance RScal.
Local Open Scope R_scope.
Local Notation solve0 := (@solve0 RScal).
Local Notation pinv0 := (@pinv0 RScal).

(** C18 without the assumption that every joint feels some inertia: solid links on moving
    joints give each a positive one. *)
Theorem C18_solid : forall solve pinv h (ab : @body RScal) fe o,
  reached solve pinv h ab -> base_fixed false h = true -> unmixed h = true -> proper ab -> firm ab ->
  o_fric o = false -> (o_grav o = true -> rot (ab_Tbase ab) = m3id) ->
  (forall i, (i < ab_dof ab)%nat -> 0 < joint_inertia ab i) /\
  (forall tau, List.length tau = ab_dof ab -> exists ddq,
     outcome (ask solve pinv (QAba tau fe o) ab) = Ok (AVec ddq) /\
     outcome (ask solve pinv (QID ddq fe o) ab) = Ok (AVec tau)) /\
  (forall ddq, List.length ddq = ab_dof ab -> exists tau,
     outcome (ask solve pinv (QID ddq fe o) ab) = Ok (AVec tau) /\
     outcome (ask solve pinv (QAba tau fe o) ab) = Ok (AVec ddq)).
Proof. exact c18_solid. Qed.
Print Assumptions C18_solid.
(** The same of C19. *)
Theorem C19_solid : forall solve pinv h (ab : @body RScal),
  reached solve pinv h ab -> base_fixed false h = true -> unmixed h = true -> proper ab -> firm ab -> serial ab ->
  exists A M, outcome (ask solve pinv QInertia ab) = Ok (AMat A) /\ outcome (ask solve pinv QAinvAba ab) = Ok (AMat M) /\
    inverse_of (ab_dof ab) A M /\ inverse_of (ab_dof ab) M A.
Proof. exact c19_solid. Qed.
Print Assumptions C19_solid.
(** C23 for ForwardDynamicsAba: no torque, no friction, no loss of energy; no solver either. *)
Theorem C23_conserved_aba : forall solve pinv h (ab : @body RScal) q dq ddq rob o,
  reached solve pinv h ab -> base_fixed false h = true -> unmixed h = true -> proper ab -> proper_joints ab -> firm ab ->
  rot (ab_Tbase ab) = m3id -> (forall t, moving ab q dq rob t (ddq t)) -> o_cc o = true -> o_fric o = false ->
  (forall t, outcome (ask solve pinv (QAba (zeros (ab_dof ab)) (fun _ => None) o) (rob t)) = Ok (AVec (ddq t))) ->
  (o_grav o = true -> exists E, forall t, energy solve pinv (rob t) E) /\
  (o_grav o = false -> exists E, forall t, kinetic_energy solve pinv (rob t) (dq t) E).
Proof. exact c23_conserved_aba. Qed.
Print Assumptions C23_conserved_aba.

(** C60.  A robot whose joints all slip: forward dynamics with friction and inverse dynamics
    with friction undo each other. *)
Theorem C60_slipping : forall solve pinv h (ab : @body RScal) fe o,
  reached solve pinv h ab -> base_fixed false h = true -> proper ab -> o_fric o = true -> 0 <= o_stic o -> slipping ab (o_stic o) ->
  exists A, outcome (ask solve pinv QInertia ab) = Ok (AMat A) /\
    (solver_ok solve (ab_dof ab) A ->
     (forall tau, List.length tau = ab_dof ab -> exists ddq,
        outcome (ask solve pinv (QFD tau fe o) ab) = Ok (AVec ddq) /\
        outcome (ask solve pinv (QID ddq fe o) ab) = Ok (AVec tau)) /\
     (injective (ab_dof ab) A -> forall ddq, List.length ddq = ab_dof ab -> exists tau,
        outcome (ask solve pinv (QID ddq fe o) ab) = Ok (AVec tau) /\
        outcome (ask solve pinv (QFD tau fe o) ab) = Ok (AVec ddq))).
Proof. exact c60_fd. Qed.
Print Assumptions C60_slipping.
(** And so do ForwardDynamicsAba with friction and inverse dynamics with friction. *)
Theorem C60_slipping_aba : forall solve pinv h (ab : @body RScal) fe o,
  reached solve pinv h ab -> base_fixed false h = true -> proper ab -> o_fric o = true -> 0 <= o_stic o -> slipping ab (o_stic o) ->
  unmixed h = true -> articulable ab -> (o_grav o = true -> rot (ab_Tbase ab) = m3id) ->
  (forall tau, List.length tau = ab_dof ab -> exists ddq,
     outcome (ask solve pinv (QAba tau fe o) ab) = Ok (AVec ddq) /\
     outcome (ask solve pinv (QID ddq fe o) ab) = Ok (AVec tau)) /\
  (forall ddq, List.length ddq = ab_dof ab -> exists tau,
     outcome (ask solve pinv (QID ddq fe o) ab) = Ok (AVec tau) /\
     outcome (ask solve pinv (QAba tau fe o) ab) = Ok (AVec ddq)).
Proof. exact c60_aba. Qed.
Print Assumptions C60_slipping_aba.
(** At rest, torques that differ from those that hold the robot ([b]) by no more than
    Coulomb friction and stiction together do not move it. *)
Theorem C60_sticks : forall solve pinv h (ab : @body RScal) tau fe o A b,
  reached solve pinv h ab -> base_fixed false h = true -> proper ab -> o_fric o = true -> 0 <= o_stic o ->
  List.length tau = ab_dof ab -> outcome (ask solve pinv QInertia ab) = Ok (AMat A) -> solver_ok solve (ab_dof ab) A -> injective (ab_dof ab) A ->
  outcome (ask solve pinv (QID (zeros (ab_dof ab)) fe (frictionless o)) ab) = Ok (AVec b) ->
  (forall i, (i < ab_dof ab)%nat -> friction_coefficients (joint_i ab i) /\ @coef RScal (ab_dq ab) i = 0 /\
     Rabs (@coef RScal tau i - @coef RScal b i) <= jcoulomb (joint_i ab i) + jstiction (joint_i ab i)) ->
  outcome (ask solve pinv (QFD tau fe o) ab) = Ok (AVec (zeros (ab_dof ab))).
Proof. exact c60_sticks. Qed.
Print Assumptions C60_sticks.
(** Energy: along a motion that forward dynamics (either one) with friction produces, the
    total energy changes at the rate of the power of the torques and of the external
    forces, less what friction takes. *)
Theorem C60_energy : forall solve pinv h (ab : @body RScal) q dq rob t ddq tau fe o,
  reached solve pinv h ab -> base_fixed false h = true -> proper ab -> proper_joints ab ->
  moving ab q dq rob t ddq -> o_grav o = true -> o_cc o = true -> o_fric o = true -> 0 <= o_stic o ->
  (forall i, (i < ab_dof ab)%nat -> slips (joint_i ab i) (o_stic o) (@coef RScal (dq t) i)) -> List.length tau = ab_dof ab ->
  (exists A, outcome (ask solve pinv QInertia (rob t)) = Ok (AMat A) /\ solver_ok solve (ab_dof ab) A /\
     outcome (ask solve pinv (QFD tau fe o) (rob t)) = Ok (AVec ddq)) \/
  (unmixed h = true /\ firm ab /\ rot (ab_Tbase ab) = m3id /\ outcome (ask solve pinv (QAba tau fe o) (rob t)) = Ok (AVec ddq)) ->
  exists E X, (forall u, energy solve pinv (rob u) (E u)) /\ outcome (ask solve pinv (QExt fe) (rob t)) = Ok (AVec X) /\
    derivable_pt_lim E t (inner (dq t) tau - inner (dq t) X - lost ab (dq t)).
Proof. exact c60_energy. Qed.
Print Assumptions C60_energy.
(** Without torques and external forces the energy never rises. *)
Theorem C60_dissipates : forall solve pinv h (ab : @body RScal) q dq rob ddq o,
  reached solve pinv h ab -> base_fixed false h = true -> proper ab -> proper_joints ab ->
  (forall t, moving ab q dq rob t (ddq t)) -> o_grav o = true -> o_cc o = true -> o_fric o = true -> 0 <= o_stic o ->
  (forall i, (i < ab_dof ab)%nat -> friction_coefficients (joint_i ab i)) ->
  (forall t i, (i < ab_dof ab)%nat -> slips (joint_i ab i) (o_stic o) (@coef RScal (dq t) i)) ->
  (forall t, exists A, outcome (ask solve pinv QInertia (rob t)) = Ok (AMat A) /\ solver_ok solve (ab_dof ab) A /\
     outcome (ask solve pinv (QFD (zeros (ab_dof ab)) (fun _ => None) o) (rob t)) = Ok (AVec (ddq t))) \/
  (unmixed h = true /\ firm ab /\ rot (ab_Tbase ab) = m3id /\
     forall t, outcome (ask solve pinv (QAba (zeros (ab_dof ab)) (fun _ => None) o) (rob t)) = Ok (AVec (ddq t))) ->
  exists E, (forall t, energy solve pinv (rob t) (E t)) /\ forall s t, s <= t -> E t <= E s.
Proof. exact c60_dissipates. Qed.
Print Assumptions C60_dissipates.

(** Non-vacuity: one link on a rail, with friction coefficients [c] (Coulomb), [v]
    (viscous) and [s] (stiction). *)
Definition on_rail (ty : jtype) (c v s : R) : @rigid_body RScal := Rb "g" [] (-1) (-1) iso_id r_inertia (Jnt ty (subspace_of ty) NInf PInf PInf PInf c v s).
Definition rail (ty : jtype) (c v s : R) : list (@op RScal) := [OAdd (on_rail ty c v s) (-1)].
Definition wagon (ty : jtype) (c v s : R) : @body RScal :=
  match run slider_solve pinv0 (rail ty c v s) (body_new "r" (@junk RScal 0)) with Some ab => ab | None => body_new "none" (@junk RScal 0) end.
Lemma wagon_ok ty c v s : ty = JPx \/ ty = JPz ->
  reached slider_solve pinv0 (rail ty c v s) (wagon ty c v s) /\ proper (wagon ty c v s) /\ proper_joints (wagon ty c v s) /\ firm (wagon ty c v s) /\ serial (wagon ty c v s) /\
  ab_dof (wagon ty c v s) = 1%nat.
Proof.
  intros Ht. assert (X : forall k, (k < 1)%nat -> k = 0%nat) by lia.
  split; [exists "r"%string, (@junk RScal 0%R); reflexivity|].
  split; [constructor; [split; [apply rigid_shift|constructor; [apply rigid_shift|constructor]]| |]; intros k Hk; apply X in Hk; subst k;
      [cbn; apply Rltb_lt; lra|repeat constructor]|].
  split; [destruct Ht as [->| ->]; repeat constructor|]. split; [|split; [|reflexivity]]; intros k Hk; apply X in Hk; subst k; [|reflexivity].
  split; [exact r_solid|]. split; [constructor; [apply solid_massive, r_solid|constructor]|].
  destruct Ht as [->| ->]; intros E; [apply (f_equal (fun m => vx (mlin m))) in E|apply (f_equal (fun m => vz (mlin m))) in E]; cbn in E; lra.
Qed.
Example C19_solid_example : exists h (ab : @body RScal), reached slider_solve pinv0 h ab /\ base_fixed false h = true /\ unmixed h = true /\ proper ab /\ firm ab /\ serial ab /\
  rot (ab_Tbase ab) = m3id /\ ab_dof ab = 1%nat.
Proof.
  destruct (wagon_ok JPx 0 2 0 (or_introl eq_refl)) as (R0 & P0 & _ & F0 & S0 & D). exists (rail JPx 0 2 0), (wagon JPx 0 2 0).
  do 6 (split; [auto|]); auto.
Qed.
(** Moved by nothing but viscous friction, on a horizontal rail: the velocity dies out
    exponentially. *)
Lemma d_decay a t : derivable_pt_lim (fun u => a * exp (- u)) t (- (a * exp (- t))).
Proof.
  assert (H : derivable_pt_lim (fun u => exp (- u)) t (exp (- t) * -1)).
  { apply (derivable_pt_lim_comp (fun u => - u) exp t (-1) (exp (- t))); [|apply derivable_pt_lim_exp].
    eapply d_eq; [apply derivable_pt_lim_opp, derivable_pt_lim_id|]. reflexivity. }
  eapply d_eq; [apply derivable_pt_lim_scal; exact H|]. ring.
Qed.
Definition glide (u : R) : @body RScal := place (wagon JPx 0 2 0) [-1 * exp (- u)] [1 * exp (- u)].
Definition viscous_only : @id_opts RScal := IdOpts true true true (1 / 100).
Example C60_example : exists h (ab : @body RScal) q dq rob ddq,
  reached slider_solve pinv0 h ab /\ base_fixed false h = true /\ unmixed h = true /\ proper ab /\ proper_joints ab /\ firm ab /\ rot (ab_Tbase ab) = m3id /\
  (forall t, moving ab q dq rob t (ddq t)) /\ (forall i, (i < ab_dof ab)%nat -> friction_coefficients (joint_i ab i)) /\
  (forall t i, (i < ab_dof ab)%nat -> slips (joint_i ab i) (1 / 100) (@coef RScal (dq t) i)) /\
  (forall t, slipping (rob t) (1 / 100)) /\
  (forall t, outcome (ask slider_solve pinv0 (QAba (zeros (ab_dof ab)) (fun _ => None) viscous_only) (rob t)) = Ok (AVec (ddq t))) /\
  (forall t, 0 < lost ab (dq t)).
Proof.
  destruct (wagon_ok JPx 0 2 0 (or_introl eq_refl)) as (R0 & P0 & J0 & F0 & S0 & D). set (ab := wagon JPx 0 2 0) in *.
  assert (X : forall k, (k < 1)%nat -> k = 0%nat) by lia.
  exists (rail JPx 0 2 0), ab, (fun u => [-1 * exp (- u)]), (fun u => [1 * exp (- u)]), glide, (fun u => [-1 * exp (- u)]).
  split; [exact R0|]. do 2 (split; [reflexivity|]). do 3 (split; [assumption|]). split; [reflexivity|].
  assert (M : forall t, moving ab (fun u => [-1 * exp (- u)]) (fun u => [1 * exp (- u)]) glide t [-1 * exp (- t)]).
  { intros t. constructor.
    - intros u. apply (place_placed _ _ _ _ _ _ R0); reflexivity.
    - reflexivity.
    - intros i Hi. apply X in Hi. subst i. eapply d_eq; [apply (d_decay (-1))|]. cbn. ring.
    - intros i Hi. apply X in Hi. subst i. eapply d_eq; [apply (d_decay 1)|]. cbn. ring. }
  split; [exact M|]. split.
  { intros i Hi. apply X in Hi. subst i. unfold friction_coefficients. cbn. lra. }
  assert (SL : forall t i, (i < ab_dof ab)%nat -> slips (joint_i ab i) (1 / 100) (@coef RScal [1 * exp (- t)] i)).
  { intros t i Hi. apply X in Hi. subst i. right. split; reflexivity. }
  split; [exact SL|]. 
  assert (ST : forall t, slipping (glide t) (1 / 100)).
  { intros t. apply (rob_slips slider_solve pinv0 (rail JPx 0 2 0) ab (fun u => [-1 * exp (- u)]) (fun u => [1 * exp (- u)]) glide t [-1 * exp (- t)] viscous_only); auto. }
  split; [exact ST|]. split.
  - intros t. destruct (rob_facts slider_solve pinv0 (rail JPx 0 2 0) ab _ _ glide t _ R0 eq_refl P0 (M t)) as (Rt & Bt & Pt & Dt & V & B & Lo & Tb).
    assert (Tt : tree_ok (glide t)) by (eapply tree_reached; eauto).
    assert (Ft : firm (glide t)) by (intros k Hk; rewrite Dt in Hk; unfold bodies_on; rewrite B, Lo; apply F0; auto).
    destruct (c60_aba slider_solve pinv0 _ _ (fun _ => None) viscous_only Rt Bt Pt eq_refl ltac:(cbn; lra) (ST t) ltac:(reflexivity) (firm_articulable _ Tt Pt Ft)) as [_ H2];
      [intros _; rewrite Tb; reflexivity|].
    destruct (H2 [-1 * exp (- t)]) as (tau & E1 & E2); [rewrite Dt; reflexivity|]. rewrite <- E2. rewrite D. do 3 f_equal.
    destruct (slip_id slider_solve pinv0 _ _ (fun _ => None) viscous_only Rt Bt Pt eq_refl ltac:(cbn; lra) (ST t) [-1 * exp (- t)]) as (t' & Lt & E3 & E4); [rewrite Dt; reflexivity|].
    rewrite E1 in E4. injection E4 as ->.
    assert (CO : cold (glide t) (@junk RScal 0) = cold (at_ ab [-1 * exp (- t)] [1 * exp (- t)]) (@junk RScal 0)).
    { destruct (placed_at _ _ _ _ (mv_placed _ _ _ _ _ _ (M t) t)) as (_ & _ & E). rewrite E. reflexivity. }
    rewrite (@C05_cache_independent RScal RLaws RPos _ _ _ (glide t) (@junk RScal 0) _ Rt Bt Pt) in E3 by reflexivity. rewrite CO in E3.
    assert (VT : t' = [-1 * exp (- t) * 2]).
    { apply (f_equal vec_of) in E3. cbn [vec_of] in E3. rewrite <- E3. cbv -[Rplus Rmult Rminus Ropp Rinv Rdiv IZR cos sin exp]. f_equal. field. }
    subst t'. rewrite Dt, D. unfold more, rubbing_torques. rewrite Dt, D, V. unfold joint_i. rewrite B. cbn. f_equal. unfold rubbing_torque. cbn. ring.
  - intros t. unfold lost. rewrite D. cbn. pose proof (exp_pos (- t)). nra.
Qed.
(** Stuck: the weight of 2 kg on a vertical rail, held by 10 N of Coulomb friction and 15 N
    of stiction. *)
Example C60_sticks_example : exists h (ab : @body RScal) A b, let o := @IdOpts RScal true true true (1 / 100)%R in
  reached slider_solve pinv0 h ab /\ base_fixed false h = true /\ proper ab /\
  outcome (ask slider_solve pinv0 QInertia ab) = Ok (AMat A) /\ solver_ok slider_solve (ab_dof ab) A /\ injective (ab_dof ab) A /\
  outcome (ask slider_solve pinv0 (QID (zeros (ab_dof ab)) (fun _ => None) (frictionless o)) ab) = Ok (AVec b) /\
  (forall i, (i < ab_dof ab)%nat -> friction_coefficients (joint_i ab i) /\ @coef RScal (ab_dq ab) i = 0 /\
     Rabs (@coef RScal [0] i - @coef RScal b i) <= jcoulomb (joint_i ab i) + jstiction (joint_i ab i)) /\
  b = [2 * (981 / 100)].
Proof.
  destruct (wagon_ok JPz 10 0 15 (or_intror eq_refl)) as (R0 & P0 & J0 & F0 & S0 & D). set (ab := wagon JPz 10 0 15) in *.
  assert (X : forall k, (k < 1)%nat -> k = 0%nat) by lia.
  destruct (@C12_inertia RScal RLaws RPos _ _ _ _ R0 eq_refl P0) as (_ & _ & A & _ & _ & HA & SQ & _).
  destruct (@c14 RScal RLaws RPos slider_solve pinv0 _ ab (zeros (ab_dof ab)) (fun _ => None) (@IdOpts RScal true true false (1 / 100)%R) R0 eq_refl P0) as (A' & C & G & Ex & b & _ & _ & _ & _ & Hb & _); [reflexivity|].
  exists (rail JPz 10 0 15), ab, A, b. cbv zeta. split; [exact R0|]. split; [reflexivity|]. split; [exact P0|].
  assert (A = [[2]]).
  { rewrite D in SQ. apply one_by_one; auto. pose proof HA as V. 
    rewrite (@C04_dynamics RScal _ _ (@laws_comm RScal RLaws) _ _ (@junk RScal 0) _ R0 eq_refl) in V by reflexivity.
    apply (f_equal vec_of) in V. cbn [vec_of] in V. refine (eq_trans (eq_sym V) _). cbv -[Rplus Rmult Rminus Ropp Rinv Rdiv IZR cos sin]. f_equal. ring. }
  subst A. assert (b = [2 * (981 / 100)]).
  { pose proof Hb as V. rewrite (@C05_cache_independent RScal RLaws RPos _ _ _ ab (@junk RScal 0) _ R0 eq_refl P0) in V by reflexivity.
    apply (f_equal vec_of) in V. cbn [vec_of] in V. refine (eq_trans (eq_sym V) _). cbv -[Rplus Rmult Rminus Ropp Rinv Rdiv IZR cos sin]. f_equal. field. }
  subst b. split; [exact HA|]. rewrite D. split; [|split; [|split; [|split; [|reflexivity]]]].
  - intros b Lb. destruct b as [|b [|? ?]]; try discriminate Lb. split; [reflexivity|]. intros i Hi. apply X in Hi. subst i. cbn. field.
  - intros x Hx HI i Hi. apply X in Hi. subst i. specialize (HI 0%nat (Nat.lt_0_1)). destruct x as [|x [|? ?]]; try discriminate Hx. cbn in HI |- *. lra.
  - exact Hb.
  - intros i Hi. apply X in Hi. subst i. split; [unfold friction_coefficients; cbn; lra|]. split; [reflexivity|]. cbn. apply Rabs_le. lra.
Qed.
(** A wagon on a horizontal rail, pushed fast enough to slip. *)
Example C60_slipping_example : exists h (ab : @body RScal) A, 
  reached slider_solve pinv0 h ab /\ base_fixed false h = true /\ proper ab /\ slipping ab (1 / 100) /\
  outcome (ask slider_solve pinv0 QInertia ab) = Ok (AMat A) /\ solver_ok slider_solve (ab_dof ab) A /\ injective (ab_dof ab) A /\
  rubbing_torques ab = [13].
Proof.
  destruct (wagon_ok JPz 10 1 15 (or_intror eq_refl)) as (R0 & P0 & J0 & F0 & S0 & D). set (ab := wagon JPz 10 1 15) in *.
  assert (X : forall k, (k < 1)%nat -> k = 0%nat) by lia.
  pose proof (place_placed _ _ _ _ [0] [3] R0 eq_refl eq_refl) as Hp. pose proof (placed_reached _ _ _ _ _ _ _ R0 Hp) as R1.
  destruct (placed_at _ _ _ _ Hp) as (_ & _ & E).
  assert (P1 : proper (place ab [0] [3])) by (rewrite E; apply at_proper; auto).
  destruct (@C12_inertia RScal RLaws RPos _ _ _ _ R1 eq_refl P1) as (_ & _ & A & _ & _ & HA & SQ & _).
  exists (rail JPz 10 1 15 ++ [@OSetQ RScal [0]; @OSetDq RScal [3]])%list, (place ab [0] [3]), A. split; [exact R1|]. split; [reflexivity|]. split; [exact P1|].
  assert (D1 : ab_dof (place ab [0] [3]) = 1%nat) by (rewrite E; exact D).
  assert (A = [[2]]).
  { rewrite D1 in SQ. apply one_by_one; auto. pose proof HA as V. 
    rewrite (@C04_dynamics RScal _ _ (@laws_comm RScal RLaws) _ _ (@junk RScal 0) _ R1 eq_refl) in V by reflexivity.
    rewrite E in V. apply (f_equal vec_of) in V. cbn [vec_of] in V. refine (eq_trans (eq_sym V) _). cbv -[Rplus Rmult Rminus Ropp Rinv Rdiv IZR cos sin]. f_equal. ring. }
  subst A. rewrite D1. split; [|split; [exact HA|split; [|split]]].
  - intros i Hi. rewrite D1 in Hi. apply X in Hi. subst i. rewrite E. left. cbn. rewrite Rabs_right by lra. lra.
  - intros b Lb. destruct b as [|b [|? ?]]; try discriminate Lb. split; [reflexivity|]. intros i Hi. apply X in Hi. subst i. cbn. field.
  - intros x Hx HI i Hi. apply X in Hi. subst i. specialize (HI 0%nat (Nat.lt_0_1)). destruct x as [|x [|? ?]]; try discriminate Hx. cbn in HI |- *. lra.
  - rewrite E. unfold rubbing_torques. replace (ab_dof _) with 1%nat by (symmetry; exact D). cbn [seq map]. f_equal. unfold rubbing_torque. cbn. unfold sign.
    repeat match goal with |- context [Rlt_dec ?a ?b] => destruct (Rlt_dec a b); try lra end.
Qed.
