(** C60: friction in forward dynamics; where it parts from inverse dynamics and from the
    articulated-body algorithm *)
From Coq Require Import List Arith ZArith Bool String QArith Qcanon Lia.
From Verif Require Import Scalar Base Spatial SpecGeo Joint Body Kin InvDyn FwdDyn Opspace OpspaceAba Deriv Sim Ops Control Instances Specs SpecCache SpecKin SpecDyn SpecAba SpecOps SpecControl SpecFric Samples Checks DynApi AbaApi ControlProofs OpsCache FricProofs PropAba PropOps PropControl PropOa.
Import ListNotations.
Local Open Scope k_scope.
Local Open Scope nat_scope.

(** ForwardDynamics with friction is ForwardDynamics without, on the torques less the
    friction that the torques left after gravity, Coriolis and external forces meet. *)
Theorem C60_forward : forall {S : Scal} {L : ScalLaws S} {PL : PosLaws S} solve pinv h ab tau fe o A,
  reached solve pinv h ab -> base_fixed false h = true -> proper ab -> o_fric o = true -> List.length tau = ab_dof ab ->
  outcome (ask solve pinv QInertia ab) = Ok (AMat A) -> solver_ok solve (ab_dof ab) A ->
  exists b F ddq, outcome (ask solve pinv (QID (repeat k0 (ab_dof ab)) fe (frictionless o)) ab) = Ok (AVec b) /\
    Friction ab (less (ab_dof ab) tau b) false (o_stic o) = Ok F /\
    outcome (ask solve pinv (QFD tau fe o) ab) = Ok (AVec ddq) /\
    outcome (ask solve pinv (QFD (less (ab_dof ab) tau F) fe (frictionless o)) ab) = Ok (AVec ddq) /\
    outcome (ask solve pinv (QID ddq fe (frictionless o)) ab) = Ok (AVec (less (ab_dof ab) tau F)).
Proof. exact @c60_forward. Qed.
Print Assumptions C60_forward.

Lemma inv_injective h ab A : reached solve_i pinv0 h ab -> base_fixed false h = true -> unmixed h = true -> proper ab -> articulable ab ->
  outcome (ask solve_i pinv0 QInertia ab) = Ok (AMat A) -> injective (ab_dof ab) A.
Proof.
  intros R B U P AR HA. destruct (c18_fd solve_i pinv0 h ab (fun _ => None) (IdOpts false true false k0) nil R B U P AR eq_refl) as (A' & HA' & HI & _); [discriminate|].
  rewrite HA in HA'. injection HA' as <-. exact HI.
Qed.
(** A robot at rest, its joints with Coulomb friction and stiction; the first one vertical. *)
Definition rough (name : string) (t : jtype) (m : Z) : @rigid_body QcScal :=
  Rb name [] (-1) (-1) iso_id (q_inertia m) (Jnt t (subspace_of t) NInf PInf PInf PInf (qz 1) (qz 2) (qz 3)).
Definition stand : list (@op QcScal) := [OAdd (rough "a" JPz 2) (-1); OAdd (rough "b" JPx 1) 0].
Definition rubs : @id_opts QcScal := IdOpts true true true (qq 1 100).
Local Notation bench := (after pinv0 stand).
Local Notation inert := (outcome (ask solve_i pinv0 QInertia bench)).
Example C60_forward_example : reached solve_i pinv0 stand bench /\ base_fixed false stand = true /\ proper bench /\ ab_dof bench = 2 /\
  inert = Ok (AMat (answer_mat inert)) /\ solver_ok solve_i 2 (answer_mat inert) /\
  fracs (outcome (ask solve_i pinv0 (QFD [qz 50; qz 7] (fun _ => None) rubs) bench)) <>
  fracs (outcome (ask solve_i pinv0 (QFD [qz 50; qz 7] (fun _ => None) (frictionless rubs)) bench)).
Proof.
  split; [apply after_reached; vm_compute; reflexivity|]. split; [reflexivity|]. split; [apply properb_ok; vm_compute; reflexivity|].
  split; [vm_compute; reflexivity|]. split; [apply answer_mat_ok; vm_compute; reflexivity|].
  split; [apply solver_b; vm_compute; reflexivity|]. vm_compute. discriminate.
Qed.

(** Defect: at rest, ForwardDynamics with friction does not undo InverseDynamics with
    friction (as it does without, C17): InverseDynamics compensates stiction in the
    direction of the total torque, gravity included, ForwardDynamics meets it in the
    direction of the torque left after gravity. *)
Theorem C60_round_trip_refuted : exists solve pinv h (ab : @body QcScal) o ddq tau ddq' A,
  reached solve pinv h ab /\ base_fixed false h = true /\ proper ab /\ o_fric o = true /\
  outcome (ask solve pinv QInertia ab) = Ok (AMat A) /\ solver_ok solve (ab_dof ab) A /\ injective (ab_dof ab) A /\
  outcome (ask solve pinv (QID ddq (fun _ => None) o) ab) = Ok (AVec tau) /\
  outcome (ask solve pinv (QFD tau (fun _ => None) o) ab) = Ok (AVec ddq') /\ ddq' <> ddq.
Proof.
  exists solve_i, pinv0, stand, bench, rubs, [qz (-5); qz 0], (answer_vec (outcome (ask solve_i pinv0 (QID [qz (-5); qz 0] (fun _ => None) rubs) bench))),
    (answer_vec (outcome (ask solve_i pinv0 (QFD (answer_vec (outcome (ask solve_i pinv0 (QID [qz (-5); qz 0] (fun _ => None) rubs) bench))) (fun _ => None) rubs) bench))),
    (answer_mat inert).
  split; [apply after_reached; vm_compute; reflexivity|]. split; [reflexivity|]. split; [apply properb_ok; vm_compute; reflexivity|]. split; [reflexivity|].
  split; [apply answer_mat_ok; vm_compute; reflexivity|]. split; [apply solver_b; vm_compute; reflexivity|].
  split.
  { apply (inv_injective stand); [apply after_reached; vm_compute; reflexivity|reflexivity|reflexivity|apply properb_ok; vm_compute; reflexivity|
      apply articulableb_ok; vm_compute; reflexivity|apply answer_mat_ok; vm_compute; reflexivity]. }
  split; [apply answer_vec_ok; vm_compute; reflexivity|]. split; [apply answer_vec_ok; vm_compute; reflexivity|].
  intros E. apply (f_equal (map frac)) in E. vm_compute in E. discriminate.
Qed.
Print Assumptions C60_round_trip_refuted.
(** Defect: ForwardDynamicsAba with friction is not ForwardDynamics with friction: its
    stiction does not hold a robot at rest against gravity. *)
Definition heavy : list (@op QcScal) :=
  [OAdd (Rb "a" [] (-1) (-1) iso_id (q_inertia 2) (Jnt JPz (subspace_of JPz) NInf PInf PInf PInf (qz 0) (qz 0) (qz 1000))) (-1)].
Lemma vec_is (r : res (@answer QcScal)) x : match r with Ok (AVec y) => veqb y x | _ => false end = true -> r = Ok (AVec x).
Proof. destruct r as [[]| |]; try discriminate. intros H. apply veqb_sound in H. subst. reflexivity. Qed.
Theorem C60_aba_refuted : exists solve pinv h (ab : @body QcScal) o tau ddq,
  reached solve pinv h ab /\ base_fixed false h = true /\ unmixed h = true /\ proper ab /\ articulable ab /\ rot (ab_Tbase ab) = m3id /\ o_fric o = true /\
  outcome (ask solve pinv (QFD tau (fun _ => None) o) ab) = Ok (AVec [k0]) /\
  outcome (ask solve pinv (QAba tau (fun _ => None) o) ab) = Ok (AVec ddq) /\ ddq <> [k0].
Proof.
  exists solve_i, pinv0, heavy, (after pinv0 heavy), rubs, [qz 0], (answer_vec (outcome (ask solve_i pinv0 (QAba [qz 0] (fun _ => None) rubs) (after pinv0 heavy)))).
  split; [apply after_reached; vm_compute; reflexivity|]. do 2 (split; [reflexivity|]). split; [apply properb_ok; vm_compute; reflexivity|].
  split; [apply articulableb_ok; vm_compute; reflexivity|]. split; [apply m3eqb_ok; vm_compute; reflexivity|]. split; [reflexivity|].
  split; [apply vec_is; vm_compute; reflexivity|]. split; [apply answer_vec_ok; vm_compute; reflexivity|].
  intros E. apply (f_equal (map frac)) in E. vm_compute in E. discriminate.
Qed.
Print Assumptions C60_aba_refuted.
