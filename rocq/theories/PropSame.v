(** C61: the same machine described differently *)
From Coq Require Import List Arith ZArith Bool String QArith Qcanon Lia.
From Verif Require Import Scalar Base Spatial SpecGeo Joint Body Kin InvDyn FwdDyn Opspace OpspaceAba Deriv Sim Ops Instances Specs SpecCache SpecKin SpecDyn SpecAba SpecSame Samples Checks DynApi AbaApi SameProofs SameChecks DiscreteSamples PropControl PropAba PropOa.
Import ListNotations.
Local Open Scope nat_scope.

(** Renumbered links are where the old ones were, but for the motion of the base. *)
Theorem C61_poses : forall {S : Scal} {L : ScalLaws S} solve pinv s X c w ha hb a b,
  reached solve pinv ha a -> reached solve pinv hb b -> base_fixed false ha = true -> base_fixed false hb = true ->
  same_machine s X c w a b -> forall k off, k < ab_dof a -> exists T p,
  outcome (ask solve pinv (QTw (Z.of_nat k)) a) = Ok (AIso T) /\ outcome (ask solve pinv (QTw (Z.of_nat (s k))) b) = Ok (AIso (iso_mul X T)) /\
  outcome (ask solve pinv (QPos (Z.of_nat k) off) a) = Ok (AV3 p) /\ outcome (ask solve pinv (QPos (Z.of_nat (s k)) off) b) = Ok (AV3 (iso_app X p)).
Proof. exact @c61_poses. Qed.
Print Assumptions C61_poses.
Theorem C61_jacobian : forall {S : Scal} {L : ScalLaws S} {ES : EqSound S} solve pinv s X c w ha hb a b,
  reached solve pinv ha a -> reached solve pinv hb b -> base_fixed false ha = true -> base_fixed false hb = true ->
  rigid X -> same_machine s X c w a b -> forall k off, k < ab_dof a -> exists J J',
  outcome (ask solve pinv (QJac (Z.of_nat k) off) a) = Ok (AMots J) /\ outcome (ask solve pinv (QJac (Z.of_nat (s k)) off) b) = Ok (AMots J') /\
  List.length J' = ab_dof a /\ forall j, j < ab_dof a -> col J' (s j) = turned X (col J j).
Proof. exact @c61_jacobian. Qed.
Print Assumptions C61_jacobian.
(** The inertia matrix is renumbered and multiplied by [c], the other terms of the equations
    of motion by [c * w * w]. *)
Theorem C61_terms : forall {S : Scal} {L : ScalLaws S} {PL : PosLaws S} solve pinv s X c w ha hb a b,
  reached solve pinv ha a -> reached solve pinv hb b -> base_fixed false ha = true -> base_fixed false hb = true -> proper a -> proper b ->
  rigid X -> same_machine s X c w a b -> forall fe fe', carried_forces s X (c * (w * w))%k (ab_dof a) fe fe' -> exists A A' C C' G G' E E',
  outcome (ask solve pinv QInertia a) = Ok (AMat A) /\ outcome (ask solve pinv QInertia b) = Ok (AMat A') /\
  outcome (ask solve pinv QCC a) = Ok (AVec C) /\ outcome (ask solve pinv QCC b) = Ok (AVec C') /\
  outcome (ask solve pinv QGrav a) = Ok (AVec G) /\ outcome (ask solve pinv QGrav b) = Ok (AVec G') /\
  outcome (ask solve pinv (QExt fe) a) = Ok (AVec E) /\ outcome (ask solve pinv (QExt fe') b) = Ok (AVec E') /\
  (forall i j, i < ab_dof a -> j < ab_dof a -> entry A' (s i) (s j) = (c * entry A i j)%k) /\
  carried s (c * (w * w))%k (ab_dof a) C C' /\ carried s (c * (w * w))%k (ab_dof a) G G' /\ carried s (c * (w * w))%k (ab_dof a) E E'.
Proof. exact @c61_terms. Qed.
Print Assumptions C61_terms.
(** Inverse and forward dynamics. *)
Theorem C61_inverse : forall {S : Scal} {L : ScalLaws S} {PL : PosLaws S} solve pinv s X c w ha hb a b,
  reached solve pinv ha a -> reached solve pinv hb b -> base_fixed false ha = true -> base_fixed false hb = true -> proper a -> proper b ->
  rigid X -> same_machine s X c w a b -> forall ddq ddq' fe fe' o, carried_forces s X (c * (w * w))%k (ab_dof a) fe fe' ->
  carried s (w * w)%k (ab_dof a) ddq ddq' -> o_fric o = false -> exists tau tau',
  outcome (ask solve pinv (QID ddq fe o) a) = Ok (AVec tau) /\ outcome (ask solve pinv (QID ddq' fe' o) b) = Ok (AVec tau') /\
  carried s (c * (w * w))%k (ab_dof a) tau tau'.
Proof. exact @c61_id. Qed.
Print Assumptions C61_inverse.
Theorem C61_forward : forall {S : Scal} {L : ScalLaws S} {PL : PosLaws S} solve pinv s X c w ha hb a b,
  reached solve pinv ha a -> reached solve pinv hb b -> base_fixed false ha = true -> base_fixed false hb = true -> proper a -> proper b ->
  rigid X -> same_machine s X c w a b -> forall tau tau' fe fe' o A A', carried_forces s X (c * (w * w))%k (ab_dof a) fe fe' ->
  carried s (c * (w * w))%k (ab_dof a) tau tau' -> o_fric o = false -> c <> k0 ->
  outcome (ask solve pinv QInertia a) = Ok (AMat A) -> outcome (ask solve pinv QInertia b) = Ok (AMat A') ->
  solver_ok solve (ab_dof a) A -> solver_ok solve (ab_dof a) A' -> injective (ab_dof a) A -> exists ddq ddq',
  outcome (ask solve pinv (QFD tau fe o) a) = Ok (AVec ddq) /\ outcome (ask solve pinv (QFD tau' fe' o) b) = Ok (AVec ddq') /\
  carried s (w * w)%k (ab_dof a) ddq ddq'.
Proof. exact @c61_fd. Qed.
Print Assumptions C61_forward.
Theorem C61_forward_aba : forall {S : Scal} {L : ScalLaws S} {PL : PosLaws S} solve pinv s X c w ha hb a b,
  reached solve pinv ha a -> reached solve pinv hb b -> base_fixed false ha = true -> base_fixed false hb = true -> proper a -> proper b ->
  rigid X -> same_machine s X c w a b -> forall tau tau' fe fe' o, carried_forces s X (c * (w * w))%k (ab_dof a) fe fe' ->
  carried s (c * (w * w))%k (ab_dof a) tau tau' -> o_fric o = false -> unmixed ha = true -> unmixed hb = true -> articulable a -> articulable b ->
  (o_grav o = true -> rot (ab_Tbase a) = m3id /\ rot (ab_Tbase b) = m3id) -> exists ddq ddq',
  outcome (ask solve pinv (QAba tau fe o) a) = Ok (AVec ddq) /\ outcome (ask solve pinv (QAba tau' fe' o) b) = Ok (AVec ddq') /\
  carried s (w * w)%k (ab_dof a) ddq ddq'.
Proof. exact @c61_aba. Qed.
Print Assumptions C61_forward_aba.

(** Non-vacuity: a branching robot with a load, its mirror image in time (or at twice the
    speed), three times as heavy, built in another order, on a turned base. *)
Definition scaled_link (c : Z) (name : string) (t : jtype) (T : iso) (m : Z) : @rigid_body QcScal := Rb name [] (-1) (-1) T (times (qz c) (q_inertia m)) (joint_of t).
Definition first : list (@op QcScal) :=
  [ OAdd (q_link "a" JRz iso_id 2) (-1); OAdd (q_link "b" JPx q_iso 1) 0; OAdd (q_link "c" JRy q_iso 3) 0; OAdd (q_link "d" JRx q_iso 1) 2;
    OAddLoad (q_inertia 5) 2; OSetG (QV 1 2 (-3)); OSetQ [qq 1 2; qz 1; qz 2; qq 1 3]; OSetDq [qz 1; qz 2; qz (-1); qz 3] ].
Definition second (X : iso) (w : Z) : list (@op QcScal) :=
  [ OSetBase (iso_mul X iso_id); OAdd (scaled_link 3 "a" JRz iso_id 2) (-1); OAdd (scaled_link 3 "c" JRy q_iso 3) 0; OAdd (scaled_link 3 "d" JRx q_iso 1) 1; OAdd (scaled_link 3 "b" JPx q_iso 1) 0; 
    OAddLoad (times (qz 3) (q_inertia 5)) 1; OSetG (v3scale (qz w * qz w)%k (m3mulv (rot X) (QV 1 2 (-3))));
    OSetQ [qq 1 2; qz 2; qq 1 3; qz 1]; OSetDq [(qz w * qz 1)%k; (qz w * qz (-1))%k; (qz w * qz 3)%k; (qz w * qz 2)%k] ].
Definition swap (k : nat) : nat := nth k [0; 3; 1; 2] 0.
Local Notation one := (after pinv0 first).
Local Notation two X w := (after pinv0 (second X w)).
Definition push (k : nat) (z : Z) (X : @iso QcScal) : @fmap QcScal := fun j => if Nat.eqb j k then Some (fscale (qz z) (fact X (Frc (QV 1 2 3) (QV 4 5 6)))) else None.
Local Notation inert r := (outcome (ask solve_i pinv0 QInertia r)).
Lemma injective_b n (A : list (list (@K QcScal))) : inverseb n A (inv0 A) = true -> injective n A.
Proof. intros I. apply (injective_inverse n A (inv0 A)). intros i j Hi Hj. exact (proj2 (inverseb_ok _ _ _ I i j Hi Hj)). Qed.
Definition meets_same (X : @iso QcScal) (w : Z) : Prop :=
  reached solve_i pinv0 first one /\ reached solve_i pinv0 (second X w) (two X w) /\ base_fixed false first = true /\ base_fixed false (second X w) = true /\
  unmixed first = true /\ unmixed (second X w) = true /\
  proper one /\ proper (two X w) /\ articulable one /\ articulable (two X w) /\ ab_dof one = 4 /\ rigid X /\ same_machine swap X (qz 3) (qz w) one (two X w) /\
  carried_forces swap X (qz 3 * (qz w * qz w))%k 4 (push 3 1 iso_id) (push 2 (3 * w * w) X) /\
  carried swap (qz 3 * (qz w * qz w))%k 4 (map qz [1; 2; 3; 4]%Z) (map (fun z => qz (3 * w * w * z)) [1; 3; 4; 2]%Z) /\
  inert one = Ok (AMat (answer_mat (inert one))) /\ inert (two X w) = Ok (AMat (answer_mat (inert (two X w)))) /\
  solver_ok solve_i 4 (answer_mat (inert one)) /\ solver_ok solve_i 4 (answer_mat (inert (two X w))) /\ injective 4 (answer_mat (inert one)).
Ltac meets := unfold meets_same;
  split; [apply after_reached; vm_compute; reflexivity|]; split; [apply after_reached; vm_compute; reflexivity|]; do 4 (split; [reflexivity|]);
  do 2 (split; [apply properb_ok; vm_compute; reflexivity|]); do 2 (split; [apply articulableb_ok; vm_compute; reflexivity|]);
  split; [vm_compute; reflexivity|]; split; [apply rigidb_ok; vm_compute; reflexivity|]; split; [apply sameb_ok; vm_compute; reflexivity|];
  split; [apply carried_forcesb_ok; vm_compute; reflexivity|]; split; [apply carriedb_ok; vm_compute; reflexivity|];
  do 2 (split; [apply answer_mat_ok; vm_compute; reflexivity|]); do 2 (split; [apply solver_b; vm_compute; reflexivity|]);
  apply injective_b; vm_compute; reflexivity.
Example C61_example : meets_same q_iso 2.
Proof. meets. Qed.
(** Backwards in time, on a base moved without turning, so with gravity in
    ForwardDynamicsAba too. *)
Local Notation shift := (@Iso QcScal m3id (QV 1 2 3)).
Example C61_example_reversed : meets_same shift (-1) /\ rot (ab_Tbase one) = m3id /\ rot (ab_Tbase (two shift (-1))) = m3id /\
  fracs (outcome (ask solve_i pinv0 (QAba (map qz [1; 2; 3; 4]%Z) (push 3 1 iso_id) plain) one)) <> map (fun _ => (0, 1)%Z) (seq 0 4).
Proof.
  split; [meets|]. split; [apply m3eqb_ok; vm_compute; reflexivity|]. split; [apply m3eqb_ok; vm_compute; reflexivity|]. vm_compute. discriminate.
Qed.
