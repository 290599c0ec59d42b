(** C56 *)
From Coq Require Import List Arith ZArith Bool String QArith Qcanon.
From Verif Require Import Scalar Base Spatial Joint Body Kin InvDyn FwdDyn Opspace OpspaceAba Deriv Sim Ops Options
  Specs SpecCache SpecKin SpecDyn Instances Samples Checks DynApi PropCache PropDyn OptionProofs.
Import ListNotations.
Local Open Scope k_scope.

(** C56.  InverseDynamics and ForwardDynamics, each called with its default options:
    applying the torques for ddq gives ddq' with A ddq = A ddq' + C; the torques for
    the acceleration caused by tau are tau - C. *)
Theorem C56_defaults : forall {S : Scal} {L : ScalLaws S} {PL : PosLaws S} solve pinv h ab fe,
  reached solve pinv h ab -> base_fixed false h = true -> proper ab ->
  exists A C, outcome (ask solve pinv QInertia ab) = Ok (AMat A) /\ outcome (ask solve pinv QCC ab) = Ok (AVec C) /\
  (solver_ok solve (ab_dof ab) A ->
   (forall ddq, List.length ddq = ab_dof ab -> exists tau ddq',
      outcome (ask solve pinv (QID ddq fe id_default) ab) = Ok (AVec tau) /\
      outcome (ask solve pinv (QFD tau fe fd_default) ab) = Ok (AVec ddq') /\
      forall i, (i < ab_dof ab)%nat -> row_times (ab_dof ab) A ddq i = row_times (ab_dof ab) A ddq' i + coef C i) /\
   (forall tau, List.length tau = ab_dof ab -> exists ddq tau',
      outcome (ask solve pinv (QFD tau fe fd_default) ab) = Ok (AVec ddq) /\
      outcome (ask solve pinv (QID ddq fe id_default) ab) = Ok (AVec tau') /\
      forall i, (i < ab_dof ab)%nat -> coef tau i = coef tau' i + coef C i)).
Proof. exact @c56. Qed.
Print Assumptions C56_defaults.
(** [C17_example] shows a robot and solver meeting these hypotheses. *)
Example C56_example : fracs (outcome (ask solve0 pinv0 QCC (robot_after two))) <> [(0, 1); (0, 1)]%Z.
Proof. vm_compute. discriminate. Qed.

(** At rest they are inverse ... *)
Theorem C56_at_rest : forall {S : Scal} {L : ScalLaws S} {PL : PosLaws S} solve pinv h ab fe,
  reached solve pinv h ab -> base_fixed false h = true -> proper ab ->
  (forall i, (i < ab_dof ab)%nat -> coef (ab_dq ab) i = 0) ->
  exists A, outcome (ask solve pinv QInertia ab) = Ok (AMat A) /\
  (solver_ok solve (ab_dof ab) A -> injective (ab_dof ab) A -> forall ddq, List.length ddq = ab_dof ab -> exists tau,
      outcome (ask solve pinv (QID ddq fe id_default) ab) = Ok (AVec tau) /\
      outcome (ask solve pinv (QFD tau fe fd_default) ab) = Ok (AVec ddq)).
Proof. exact @c56_rest. Qed.
Print Assumptions C56_at_rest.
(** ... and in motion if InverseDynamics is given the options of ForwardDynamics. *)
Theorem C56_converted : forall {S : Scal} {L : ScalLaws S} {PL : PosLaws S} solve pinv h ab fe,
  reached solve pinv h ab -> base_fixed false h = true -> proper ab -> forall o, o_fric o = false ->
  exists A, outcome (ask solve pinv QInertia ab) = Ok (AMat A) /\
  (solver_ok solve (ab_dof ab) A -> injective (ab_dof ab) A -> forall ddq, List.length ddq = ab_dof ab -> exists tau,
      outcome (ask solve pinv (QID ddq fe (id_of_fd o)) ab) = Ok (AVec tau) /\
      outcome (ask solve pinv (QFD tau fe o) ab) = Ok (AVec ddq)).
Proof. exact @c56_converted. Qed.
Print Assumptions C56_converted.

(** In motion the defaults are not inverse. *)
Theorem C56_refuted : exists (ab : @body QcScal) ddq tau ddq', reached solve0 pinv0 two ab /\ List.length ddq = ab_dof ab /\
  outcome (ask solve0 pinv0 (QID ddq (fun _ => None) id_default) ab) = Ok (AVec tau) /\
  outcome (ask solve0 pinv0 (QFD tau (fun _ => None) fd_default) ab) = Ok (AVec ddq') /\ ddq' <> ddq.
Proof.
  assert (X : let d := [qz 0; qz 0] in
    match outcome (ask solve0 pinv0 (QID d (fun _ => None) id_default) (robot_after two)) with
    | Ok (AVec tau) => fracs (outcome (ask solve0 pinv0 (QFD tau (fun _ => None) fd_default) (robot_after two))) <> [] /\
                       fracs (outcome (ask solve0 pinv0 (QFD tau (fun _ => None) fd_default) (robot_after two))) <> map frac d
    | _ => False
    end) by (vm_compute; split; discriminate).
  exists (robot_after two), [qz 0; qz 0]. cbn zeta in X.
  destruct (outcome (ask solve0 pinv0 (QID [qz 0; qz 0] (fun _ => None) id_default) (robot_after two))) as [a| |] eqn:ET; try contradiction.
  destruct a as [a|a|a|a|a|a|l|a|a|a|a b]; try contradiction.
  destruct X as [X1 X2].
  assert (V : forall r, fracs (outcome (wrap AVec r)) <> [] -> exists l, outcome (wrap AVec r) = Ok (AVec l)).
  { intros [[b0 l0]| |] H; [exists l0; reflexivity| |]; exfalso; apply H; reflexivity. }
  cbn [ask] in *. destruct (V _ X1) as [d' D]. rewrite D in *. exists l, d'.
  split; [apply robot_after_reached; vm_compute; reflexivity|]. split; [vm_compute; reflexivity|]. split; [reflexivity|]. split; [exact D|].
  intros E. apply X2. rewrite E. reflexivity.
Qed.
Print Assumptions C56_refuted.
