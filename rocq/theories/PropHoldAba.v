(** C58 for Integrate with the articulated-body algorithm (its option [aba]) *)
From Coq Require Import List Arith ZArith Bool String QArith Qcanon Reals Lra Lia.
From Verif Require Import Scalar Base Spatial SpecGeo Joint Body Kin InvDyn FwdDyn Opspace OpspaceAba Deriv Sim Ops Control Instances Specs SpecCache SpecKin SpecDyn SpecAba SpecOps SpecReal SpecSim SpecFric SpecHold Samples Checks
  CacheOps DynApi AbaApi FirmProofs FricProofs HoldAba PropCache PropDyn PropReal PropControl PropAba PropHold PropFric PropFricAba.
Import ListNotations.
Local Open Scope nat_scope.

(** C58_balance without any solver: torques that balance gravity (if simulated; then the
    base must not be turned, C21) and the external forces leave a robot at rest exactly
    where it is. *)
Theorem C58_balance_aba : forall {S : Scal} {L : ScalLaws S} {PL : PosLaws S} solve pinv h ab G E tau fe o steps,
  reached solve pinv h ab -> base_fixed false h = true -> unmixed h = true -> proper ab -> articulable ab ->
  (o_grav o = true -> rot (ab_Tbase ab) = m3id) ->
  outcome (ask solve pinv QGrav ab) = Ok (AVec G) -> outcome (ask solve pinv (QExt fe) ab) = Ok (AVec E) ->
  at_rest ab -> o_fric o = false -> List.length tau = ab_dof ab ->
  (forall i, i < ab_dof ab -> coef tau i = kadd (coef E i) (if o_grav o then coef G i else k0)) ->
  (forall io dt, In (io, dt) steps -> i_limits io = true -> in_limits ab) ->
  exists ab', integrated solve true tau fe o steps ab = Ok ab' /\ unmoved ab ab'.
Proof. exact @c58_balance_aba. Qed.
Print Assumptions C58_balance_aba.
(** With friction and without gravity (with both it is false, C60_aba_refuted). *)
Theorem C58_stiction_aba : forall solve pinv h (ab : @body RScal) E tau fe (o : @id_opts RScal) steps,
  reached solve pinv h ab -> base_fixed false h = true -> unmixed h = true -> proper ab -> articulable ab ->
  outcome (ask solve pinv (QExt fe) ab) = Ok (AVec E) ->
  at_rest ab -> o_fric o = true -> (0 <= o_stic o)%R -> o_grav o = false -> List.length tau = ab_dof ab ->
  (forall i, i < ab_dof ab -> friction_coefficients (joint_i ab i) /\
     (Rabs (@coef RScal tau i - @coef RScal E i) <= jcoulomb (joint_i ab i) + jstiction (joint_i ab i))%R) ->
  (forall io dt, In (io, dt) steps -> i_limits io = true -> in_limits ab) ->
  exists ab', integrated solve true tau fe o steps ab = Ok ab' /\ unmoved ab ab'.
Proof. exact c58_stiction_aba. Qed.
Print Assumptions C58_stiction_aba.

(** The robot of C58_example meets the other hypotheses of C58_balance_aba. *)
Example C58_aba_example : unmixed parked = true /\ articulable bot /\ rot (ab_Tbase bot) = m3id.
Proof. split; [reflexivity|]. split; [apply articulableb_ok; vm_compute; reflexivity|]. apply m3eqb_ok. vm_compute. reflexivity. Qed.
(** And the weight on a rail of C60_sticks_aba_example those of C58_stiction_aba. *)
Example C58_stiction_aba_example : exists h (ab : @body RScal), @reached RScal slider_solve (@pinv0 RScal) h ab /\ base_fixed false h = true /\ unmixed h = true /\ proper ab /\ articulable ab /\
  outcome (@ask RScal slider_solve (@pinv0 RScal) (QExt pull) ab) = Ok (@AVec RScal [(-30)%R]) /\ at_rest ab /\
  forall i, i < ab_dof ab -> friction_coefficients (joint_i ab i) /\
     (Rabs (@coef RScal [(-20)%R] i - @coef RScal [(-30)%R] i) <= jcoulomb (joint_i ab i) + jstiction (joint_i ab i))%R.
Proof.
  destruct (wagon_ok JPz 10 0 15 (or_intror eq_refl)) as (R0 & P0 & J0 & F0 & S0 & D). set (ab := wagon JPz 10 0 15) in *.
  assert (X : forall k, (k < 1)%nat -> k = 0%nat) by lia.
  destruct (C18_solid slider_solve (@pinv0 RScal) _ ab pull (@IdOpts RScal false true false (1 / 100)%R) R0 eq_refl eq_refl P0 F0 eq_refl) as (AR & _); [discriminate|].
  exists (rail JPz 10 0 15), ab. split; [exact R0|]. do 2 (split; [reflexivity|]). split; [exact P0|].
  split; [intros i Hi; apply Rgt_not_eq; exact (AR i Hi)|]. split; [|split].
  - destruct (@c14 RScal RLaws RPos slider_solve (@pinv0 RScal) _ ab (zeros (ab_dof ab)) pull (@IdOpts RScal false true false (1 / 100)%R) R0 eq_refl P0) as (A' & C & G & Ex & b & _ & _ & _ & HE & _); [reflexivity|].
    assert (V : Ex = [(-30)%R]); [|rewrite V in HE; exact HE].
    pose proof HE as V. rewrite (@C04_dynamics RScal slider_solve (@pinv0 RScal) (@laws_comm RScal RLaws) _ ab (@junk RScal 0%R) (QExt pull) R0 eq_refl eq_refl) in V.
    apply (f_equal vec_of) in V. cbn [vec_of] in V. refine (eq_trans (eq_sym V) _). cbv -[Rplus Rmult Rminus Ropp Rinv Rdiv IZR cos sin]. f_equal. field.
  - intros i _. rewrite ?D. unfold ab. cbn. destruct i as [|[|i]]; reflexivity.
  - rewrite D. intros i Hi. apply X in Hi. subst i. split; [unfold friction_coefficients; cbn; lra|]. cbn. apply Rabs_le. lra.
Qed.
