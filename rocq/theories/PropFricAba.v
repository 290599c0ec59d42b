(** C60 (friction) for ForwardDynamicsAba with joints that move, rest or slip, over the
    reals *)
From Coq Require Import List Arith ZArith Bool String Reals Lra Lia.
From Verif Require Import Scalar Base Spatial SpecGeo Joint Body Kin InvDyn FwdDyn Opspace OpspaceAba Deriv Sim Ops Instances Specs SpecCache SpecKin SpecDyn SpecAba SpecReal SpecSim SpecFric Samples TreeProofs CacheOps RealCalc RealDyn DynApi AbaApi FirmProofs FricProofs FricAba PropCache PropDyn PropReal PropFric.
Import ListNotations.
Local Existing Instance RScal.
Local Open Scope R_scope.
Local Notation pinv0 := (@pinv0 RScal).

(** Whatever the joints do, ForwardDynamicsAba with friction answers as it would without for
    the torques less some friction torques [F]: a viscous part and a part [s] that is Coulomb
    friction against the motion of a joint that moves, and no more than Coulomb friction and
    stiction on one that rests (or has no Coulomb friction).  The accelerations are those to
    which InverseDynamics without friction assigns these torques. *)
Theorem C60_friction_aba : forall solve pinv h (ab : @body RScal) tau fe o,
  reached solve pinv h ab -> base_fixed false h = true -> unmixed h = true ->
  o_fric o = true -> 0 <= o_stic o -> List.length tau = ab_dof ab -> (forall i, (i < ab_dof ab)%nat -> friction_coefficients (joint_i ab i)) ->
  exists F, List.length F = ab_dof ab /\
    outcome (ask solve pinv (QAba tau fe o) ab) = outcome (ask solve pinv (QAba (@less RScal (ab_dof ab) tau F) fe (frictionless o)) ab) /\
    (forall i, (i < ab_dof ab)%nat -> let j := joint_i ab i in let dq := @coef RScal (ab_dq ab) i in
      exists s, @coef RScal F i = jviscous j * dq + s /\
        (o_stic o < Rabs dq -> 0 < jcoulomb j -> s = jcoulomb j * sign dq) /\
        (Rabs dq <= o_stic o \/ jcoulomb j = 0 -> Rabs s <= jcoulomb j + jstiction j)) /\
    (proper ab -> articulable ab -> (o_grav o = true -> rot (ab_Tbase ab) = m3id) -> exists ddq,
      outcome (ask solve pinv (QAba tau fe o) ab) = Ok (AVec ddq) /\
      outcome (ask solve pinv (QID ddq fe (frictionless o)) ab) = Ok (AVec (@less RScal (ab_dof ab) tau F))).
Proof. exact c60_friction_aba. Qed.
Print Assumptions C60_friction_aba.
(** C60_sticks for ForwardDynamicsAba where gravity is left out (with gravity the statement
    is false, C60_aba_refuted): at rest, torques that differ from those that hold the robot
    ([b]) by no more than Coulomb friction and stiction together do not move it. *)
Theorem C60_sticks_aba : forall solve pinv h (ab : @body RScal) tau fe o b,
  reached solve pinv h ab -> base_fixed false h = true -> unmixed h = true -> proper ab -> articulable ab ->
  o_fric o = true -> 0 <= o_stic o -> o_grav o = false -> List.length tau = ab_dof ab ->
  outcome (ask solve pinv (QID (zeros (ab_dof ab)) fe (frictionless o)) ab) = Ok (AVec b) ->
  (forall i, (i < ab_dof ab)%nat -> friction_coefficients (joint_i ab i) /\ @coef RScal (ab_dq ab) i = 0 /\
     Rabs (@coef RScal tau i - @coef RScal b i) <= jcoulomb (joint_i ab i) + jstiction (joint_i ab i)) ->
  outcome (ask solve pinv (QAba tau fe o) ab) = Ok (AVec (zeros (ab_dof ab))).
Proof. exact c60_sticks_aba. Qed.
Print Assumptions C60_sticks_aba.

(** A weight of 2 kg on a rail with 10 N of Coulomb friction and 15 N of stiction, pulled by
    30 N along the rail and held by a torque of 20 N (the hypotheses of both theorems). *)
Definition pull : @fmap RScal := fun k => if Nat.eqb k 0 then Some (@Frc RScal (V3 0 0 30) (V3 0 0 0)) else None.
Example C60_sticks_aba_example : exists h (ab : @body RScal), let o := @IdOpts RScal false true true (1 / 100)%R in
  reached slider_solve pinv0 h ab /\ base_fixed false h = true /\ unmixed h = true /\ proper ab /\ articulable ab /\ ab_dof ab = 1%nat /\
  outcome (ask slider_solve pinv0 (QID (zeros (ab_dof ab)) pull (frictionless o)) ab) = Ok (AVec [-30]) /\
  (forall i, (i < ab_dof ab)%nat -> friction_coefficients (joint_i ab i) /\ @coef RScal (ab_dq ab) i = 0 /\
     Rabs (@coef RScal [-20] i - @coef RScal [-30] i) <= jcoulomb (joint_i ab i) + jstiction (joint_i ab i)).
Proof.
  destruct (wagon_ok JPz 10 0 15 (or_intror eq_refl)) as (R0 & P0 & J0 & F0 & S0 & D). set (ab := wagon JPz 10 0 15) in *.
  assert (X : forall k, (k < 1)%nat -> k = 0%nat) by lia.
  destruct (@c14 RScal RLaws RPos slider_solve pinv0 _ ab (zeros (ab_dof ab)) pull (@IdOpts RScal false true false (1 / 100)%R) R0 eq_refl P0) as (A' & C & G & Ex & b & _ & _ & _ & _ & Hb & _); [reflexivity|].
  destruct (C18_solid slider_solve pinv0 _ ab pull (@IdOpts RScal false true false (1 / 100)%R) R0 eq_refl eq_refl P0 F0 eq_refl) as (AR & _); [discriminate|].
  exists (rail JPz 10 0 15), ab. cbv zeta. split; [exact R0|]. do 2 (split; [reflexivity|]). split; [exact P0|].
  split; [intros i Hi; apply Rgt_not_eq; exact (AR i Hi)|]. split; [exact D|]. assert (b = [-30]).
  { pose proof Hb as V. rewrite (@C05_cache_independent RScal RLaws RPos _ _ _ ab (@junk RScal 0) _ R0 eq_refl P0) in V by reflexivity.
    apply (f_equal vec_of) in V. cbn [vec_of] in V. refine (eq_trans (eq_sym V) _). cbv -[Rplus Rmult Rminus Ropp Rinv Rdiv IZR cos sin]. f_equal. field. }
  subst b. split; [exact Hb|]. rewrite D. intros i Hi. apply X in Hi. subst i. split; [unfold friction_coefficients; cbn; lra|]. split; [reflexivity|]. cbn. apply Rabs_le. lra.
Qed.
