(** C43: massless links and undefined joints *)
From Coq Require Import List Arith ZArith Bool String SpecFloat Lia.
From Verif Require Import Scalar Base Spatial SpecGeo Joint Body Kin InvDyn FwdDyn Opspace OpspaceAba Deriv Sim Ops Instances Specs SpecCache SpecKin SpecDyn SpecAba SpecNan Samples JointProofs NanProofs.
Import ListNotations.

(** IEEE arithmetic, whatever sine and cosine.  The sum of two massless inertias has no
    mass, and its centre of mass and its rotational inertia are not numbers. *)
Theorem C43_sum : forall sn cs tr (I J : @inertia (F64of sn cs tr)), no_mass sn cs tr I -> no_mass sn cs tr J ->
  no_mass sn cs tr (iadd I J) /\ icom (iadd I J) = nan_vec sn cs tr /\ iI (iadd I J) = nan_mat sn cs tr.
Proof. exact c43_sum. Qed.
Print Assumptions C43_sum.

(** A massless link with a child and nothing but massless links below it: its diagonal
    entry of the inertia matrix, and those of all its ancestors, are not numbers. *)
Theorem C43_inertia : forall sn cs tr solve pinv h (ab : @body (F64of sn cs tr)) p c i,
  reached solve pinv h ab -> base_fixed false h = true -> (p < ab_dof ab)%nat -> (c < ab_dof ab)%nat -> par ab c = Some p ->
  (forall k, (k < ab_dof ab)%nat -> In p (anc_at ab k) -> weightless sn cs tr ab k) -> In i (anc_at ab p) ->
  exists A, outcome (ask solve pinv QInertia ab) = Ok (AMat A) /\ @entry (F64of sn cs tr) A i i = nan sn cs tr.
Proof. exact c43_inertia. Qed.
Print Assumptions C43_inertia.

(** An undefined joint: ForwardDynamicsAba gives no number for any link of the same tree
    (any link that has an ancestor in common). *)
Theorem C43_undefined : forall sn cs tr solve pinv h (ab : @body (F64of sn cs tr)) tau fe o u r l,
  reached solve pinv h ab -> base_fixed false h = true -> unmixed h = true -> List.length tau = ab_dof ab ->
  (u < ab_dof ab)%nat -> jsub (rb_joint (rb_at ab u)) = mzero ->
  (l < ab_dof ab)%nat -> In r (anc_at ab u) -> In r (anc_at ab l) ->
  exists ddq, outcome (ask solve pinv (QAba tau fe o) ab) = Ok (AVec ddq) /\ @coef (F64of sn cs tr) ddq l = nan sn cs tr.
Proof. exact c43_aba. Qed.
Print Assumptions C43_undefined.
(** Such a joint is what the setters leave when the type is undefined. *)
Theorem C43_undefined_joint : forall {S : Scal} calls j, joint_run calls joint_default = Some j -> jtyp j = JUndef -> jsub j = mzero.
Proof. exact @undef_still. Qed.
Print Assumptions C43_undefined_joint.

(** In exact arithmetic its row and column of the inertia matrix vanish. *)
Theorem C43_singular : forall {S : Scal} {L : ScalLaws S} solve pinv h ab u j,
  reached solve pinv h ab -> base_fixed false h = true -> rigid_robot ab ->
  (u < ab_dof ab)%nat -> jsub (rb_joint (rb_at ab u)) = mzero -> (j < ab_dof ab)%nat ->
  exists A, outcome (ask solve pinv QInertia ab) = Ok (AMat A) /\ entry A u j = k0 /\ entry A j u = k0.
Proof. exact @c43_singular. Qed.
Print Assumptions C43_singular.

(** A sliding link carrying an undefined joint; the links weigh nothing. *)
Definition f_link (t : jtype) : @rigid_body F64 := Rb "l" [] (-1) (-1) iso_id (Inr k0 v3zero m3zero) (joint_of t).
Definition f_history : list (@op F64) := [OAdd (f_link JPx) (-1); OAdd (f_link JUndef) 0].
Definition f_robot : @body F64 :=
  match run (@solve0 F64) (@pinv0 F64) f_history (body_new "f" (@junk F64 (S754_zero false))) with Some ab => ab | None => body_new "none" (@junk F64 (S754_zero false)) end.
Example C43_example : reached (@solve0 F64) (@pinv0 F64) f_history f_robot /\ base_fixed false f_history = true /\ unmixed f_history = true /\
  ab_dof f_robot = 2%nat /\ par f_robot 1 = Some 0%nat /\ jsub (rb_joint (rb_at f_robot 1)) = mzero /\
  In 0%nat (anc_at f_robot 1) /\ In 0%nat (anc_at f_robot 0) /\
  (forall k, (k < ab_dof f_robot)%nat -> In 0%nat (anc_at f_robot k) -> weightless _ _ _ f_robot k).
Proof.
  split; [exists "f"%string, (@junk F64 (S754_zero false)); reflexivity|]. repeat split; try reflexivity; try (left; reflexivity).
  all: destruct k as [|[|k]]; try reflexivity; cbn in H; lia.
Qed.
Example C43_singular_example : let h := [OAdd (q_link "a" JRz iso_id 2) (-1); OAdd (q_link "b" JUndef iso_id 1) 0] in
  reached solve0 pinv0 h (robot_after h) /\ base_fixed false h = true /\ ab_dof (robot_after h) = 2%nat /\ jsub (rb_joint (rb_at (robot_after h) 1)) = mzero.
Proof. intros h. split; [apply robot_after_reached; vm_compute; reflexivity|]. split; [reflexivity|]. split; vm_compute; reflexivity. Qed.
