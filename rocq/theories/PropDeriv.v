(** C40, C41: derivatives of inverse dynamics *)
From Coq Require Import List Arith ZArith Bool String QArith Qcanon Reals Lra Lia.
From Verif Require Import Scalar Base Spatial SpecGeo Joint Body Kin InvDyn FwdDyn Opspace OpspaceAba Deriv Sim Ops Instances Specs SpecCache SpecKin SpecDyn SpecReal Samples Checks TreeProofs VelProofs PosProofs PropCache PropDyn PropReal.
Import ListNotations.
Local Open Scope k_scope.

(** C40.  For joint velocities dq, dq + x and x: the torques at dq + x are those at dq,
    plus D x, plus the centrifugal and Coriolis torques at x. *)
Theorem C40_directions : forall {S : Scal} {L : ScalLaws S} {PL : PosLaws S} {ES : EqSound S} solve pinv h ab ddq fe o x y ab1 ab2,
  reached solve pinv h ab -> base_fixed false h = true -> proper ab -> o_fric o = false ->
  List.length ddq = ab_dof ab -> (forall i, (i < ab_dof ab)%nat -> coef y i = coef (ab_dq ab) i + coef x i) ->
  set_dq y ab = Ret ab1 tt -> set_dq x ab = Ret ab2 tt ->
  exists D tau tau1 C, outcome (ask solve pinv (QVelD ddq fe o) ab) = Ok (AMat D) /\ square (ab_dof ab) D /\
    outcome (ask solve pinv (QID ddq fe o) ab) = Ok (AVec tau) /\ outcome (ask solve pinv (QID ddq fe o) ab1) = Ok (AVec tau1) /\
    outcome (ask solve pinv QCC ab2) = Ok (AVec C) /\ List.length tau1 = ab_dof ab /\
    forall i, (i < ab_dof ab)%nat -> coef tau1 i = coef tau i + row_times (ab_dof ab) D x i + (if o_cc o then coef C i else 0).
Proof. exact @c40. Qed.
Print Assumptions C40_directions.
(** Column j is the coefficient of t when t is added to dq_j; the rest is t^2 times a
    constant. *)
Theorem C40_columns : forall {S : Scal} {L : ScalLaws S} {PL : PosLaws S} {ES : EqSound S} solve pinv h ab ddq fe o j,
  reached solve pinv h ab -> base_fixed false h = true -> proper ab -> o_fric o = false ->
  List.length ddq = ab_dof ab -> (j < ab_dof ab)%nat ->
  exists D tau r, outcome (ask solve pinv (QVelD ddq fe o) ab) = Ok (AMat D) /\ outcome (ask solve pinv (QID ddq fe o) ab) = Ok (AVec tau) /\
    forall t ab1, set_dq (vec (ab_dof ab) (fun i => if Nat.eqb i j then coef (ab_dq ab) i + t else coef (ab_dq ab) i)) ab = Ret ab1 tt ->
      exists tau1, outcome (ask solve pinv (QID ddq fe o) ab1) = Ok (AVec tau1) /\
        forall i, (i < ab_dof ab)%nat -> coef tau1 i = coef tau i + t * entry D i j + t * t * coef r i.
Proof. exact @c40_column. Qed.
Print Assumptions C40_columns.
Example C40_example : let o := IdOpts true true false (qz 0) in let x := map qz [2; 0; 1; -1; 3]%Z in let ddq := map qz [1; 2; 3; 4; 5]%Z in
  reached solve0 pinv0 busy (robot_after busy) /\ base_fixed false busy = true /\ proper (robot_after busy) /\ ab_dof (robot_after busy) = 5%nat /\
  (exists ab1, set_dq (vec 5 (fun i => coef (ab_dq (robot_after busy)) i + coef x i)) (robot_after busy) = Ret ab1 tt) /\
  (exists ab2, set_dq x (robot_after busy) = Ret ab2 tt) /\
  map (map frac) (answer_mat (outcome (ask solve0 pinv0 (QVelD ddq (fun _ => None) o) (robot_after busy)))) <> map (map frac) (mat 5 5 (fun _ _ => qz 0)).
Proof.
  intros o x ddq. assert (R : reached solve0 pinv0 busy (robot_after busy)) by (apply robot_after_reached; vm_compute; reflexivity).
  assert (D : ab_dof (robot_after busy) = 5%nat) by (vm_compute; reflexivity). pose proof (tree_reached _ _ _ _ R) as T.
  split; [exact R|]. split; [reflexivity|]. split; [exact busy_proper|]. split; [exact D|].
  split; [apply set_dq_ok; [exact T|rewrite D; reflexivity]|]. split; [apply set_dq_ok; [exact T|rewrite D; reflexivity]|]. vm_compute. discriminate.
Qed.

(** C41.  Any link with a parent: a 6 x n block is added to one column. *)
Theorem C41_undefined : forall {S : Scal} solve pinv h (ab : body) i p ddq fe o,
  reached solve pinv h ab -> (i < ab_dof ab)%nat -> par ab i = Some p -> outcome (ask solve pinv (QPosD ddq fe o) ab) = UB.
Proof. exact @c41_undef. Qed.
Print Assumptions C41_undefined.
Example C41_undefined_example : reached solve0 pinv0 busy (robot_after busy) /\ (1 < ab_dof (robot_after busy))%nat /\ exists p, par (robot_after busy) 1 = Some p.
Proof. split; [apply robot_after_reached; vm_compute; reflexivity|]. split; [vm_compute; auto|]. vm_compute. eexists; reflexivity. Qed.
(** Robots without such links: the exact derivative with respect to the position. *)
Local Open Scope R_scope.
Theorem C41_roots : forall (solve : list (list (@K RScal)) -> list (@K RScal) -> list (@K RScal)) (pinv : list (list (@K RScal)) -> @K RScal -> list (list (@K RScal)) * bool)
  h (ab : @body RScal) ddq fe o i j,
  @reached RScal solve pinv h ab -> base_fixed false h = true -> proper ab -> proper_joints ab ->
  (forall k, (k < ab_dof ab)%nat -> par ab k = None) -> o_fric o = false -> List.length ddq = ab_dof ab -> (i < ab_dof ab)%nat -> (j < ab_dof ab)%nat ->
  exists D tau, outcome (@ask RScal solve pinv (QPosD ddq fe o) ab) = Ok (AMat D) /\ @square RScal (ab_dof ab) D /\
    (forall x ab', placed ab (replaced (ab_q ab) j x) (ab_dq ab) ab' ->
       exists v, outcome (@ask RScal solve pinv (QID ddq fe o) ab') = Ok (AVec v) /\ @coef RScal v i = tau x) /\
    derivable_pt_lim tau (@coef RScal (ab_q ab) j) (@entry RScal D i j).
Proof. exact c41_roots. Qed.
Print Assumptions C41_roots.
Definition roots_history : list (@op RScal) := [OAdd r_link (-1); OAdd r_link_x (-1); OAddLoad r_inertia 1].
Definition roots_ab : @body RScal :=
  match run (@solve0 RScal) (@pinv0 RScal) roots_history (body_new "r" (@junk RScal 0)) with Some ab => ab | None => body_new "none" (@junk RScal 0) end.
Example C41_roots_example : r_meets roots_history roots_ab /\ ab_dof roots_ab = 2%nat /\ forall k, (k < ab_dof roots_ab)%nat -> par roots_ab k = None.
Proof.
  assert (X : forall k, (k < 2)%nat -> k = 0%nat \/ k = 1%nat) by lia.
  split; [split; [exists "r"%string, (@junk RScal 0%R); reflexivity|]|split; [reflexivity|intros k Hk; apply X in Hk; destruct Hk as [->| ->]; reflexivity]]. split; [reflexivity|].
  assert (SY : isym r_inertia) by reflexivity.
  split; [|repeat constructor].
  constructor; [split; [apply rigid_shift|constructor; [apply rigid_shift|constructor; [apply rigid_shift|constructor]]]| |]; intros k Hk; apply X in Hk; destruct Hk as [->| ->];
      try (cbn; apply Rltb_lt; lra); repeat constructor.
Qed.
