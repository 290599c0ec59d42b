(** C59: the operational-space articulated-body functions *)
From Coq Require Import List Arith ZArith Bool String QArith Qcanon Lia.
From Verif Require Import Scalar Base Spatial SpecGeo Joint Body Kin InvDyn FwdDyn Opspace OpspaceAba Deriv Sim Ops Control Instances Specs SpecCache SpecKin SpecDyn SpecAba SpecOps SpecControl Samples Checks DynApi AbaApi ControlProofs OaApi PropAba PropOps PropControl.
Import ListNotations.
Local Open Scope k_scope.
Local Open Scope nat_scope.

(** Without loads, opspace::InertiaInverseAba(ab, link, offset) is
    opspace::InertiaInverse(ab, J), J the Jacobian of the origin of the link, whatever the
    offset. *)
Theorem C59_inertia_inverse : forall {S : Scal} {L : ScalLaws S} {PL : PosLaws S} {ES : EqSound S} solve pinv h ab l A cols,
  reached solve pinv h ab -> base_fixed false h = true -> unmixed h = true -> proper ab -> articulable ab -> (forall k, ab_loads ab k = None) ->
  outcome (ask solve pinv QInertia ab) = Ok (AMat A) -> solver_ok solve (ab_dof ab) A ->
  outcome (ask solve pinv (QJac l v3zero) ab) = Ok (AMots cols) ->
  forall off, exists M, outcome (ask solve pinv (QaLinv l off) ab) = Ok (AMat M) /\
    outcome (ask solve pinv (QoLinv (task_rows None cols)) ab) = Ok (AMat M).
Proof. exact @c59_linv. Qed.
Print Assumptions C59_inertia_inverse.
(** The same of opspace::InertiaAba and opspace::Inertia, whatever the pseudo-inverse. *)
Theorem C59_inertia : forall {S : Scal} {L : ScalLaws S} {PL : PosLaws S} {ES : EqSound S} solve pinv h ab l A cols,
  reached solve pinv h ab -> base_fixed false h = true -> unmixed h = true -> proper ab -> articulable ab -> (forall k, ab_loads ab k = None) ->
  outcome (ask solve pinv QInertia ab) = Ok (AMat A) -> solver_ok solve (ab_dof ab) A ->
  outcome (ask solve pinv (QJac l v3zero) ab) = Ok (AMots cols) ->
  forall off eps, exists M, outcome (ask solve pinv (QaLambda l off eps) ab) = Ok (AMat M) /\
    outcome (ask solve pinv (QoLambda (task_rows None cols) eps) ab) = Ok (AMat M).
Proof. exact @c59_lam. Qed.
Print Assumptions C59_inertia.
(** opspace::CentrifugalCoriolisAba is opspace::CentrifugalCoriolis where the threshold
    makes no difference to the pseudo-inverse. *)
Theorem C59_coriolis : forall {S : Scal} {L : ScalLaws S} {PL : PosLaws S} {ES : EqSound S} solve pinv h ab l A cols,
  reached solve pinv h ab -> base_fixed false h = true -> unmixed h = true -> proper ab -> articulable ab -> (forall k, ab_loads ab k = None) ->
  outcome (ask solve pinv QInertia ab) = Ok (AMat A) -> solver_ok solve (ab_dof ab) A ->
  outcome (ask solve pinv (QJac l v3zero) ab) = Ok (AMots cols) ->
  forall off e Li, one_threshold e h -> outcome (ask solve pinv (QoLinv (task_rows None cols)) ab) = Ok (AMat Li) ->
  penrose 6 Li (fst (pinv Li e)) -> penrose 6 Li (fst (pinv Li k0)) ->
  exists x, outcome (ask solve pinv (QaCC l off e) ab) = Ok (AVec x) /\
    outcome (ask solve pinv (QoCC (task_rows None cols) l e) ab) = Ok (AVec x).
Proof. exact @c59_cc. Qed.
Print Assumptions C59_coriolis.
(** opspace::GravityAba on a robot whose caches are empty (see C22) is opspace::Gravity
    MINUS opspace::ExternalForces. *)
Theorem C59_gravity : forall {S : Scal} {L : ScalLaws S} {PL : PosLaws S} {ES : EqSound S} solve pinv h ab l A cols,
  reached solve pinv h ab -> base_fixed false h = true -> unmixed h = true -> proper ab -> articulable ab -> (forall k, ab_loads ab k = None) ->
  outcome (ask solve pinv QInertia ab) = Ok (AMat A) -> solver_ok solve (ab_dof ab) A ->
  outcome (ask solve pinv (QJac l v3zero) ab) = Ok (AMots cols) ->
  forall off fe e Li mem, one_threshold e h -> outcome (ask solve pinv (QoLinv (task_rows None cols)) ab) = Ok (AMat Li) -> penrose 6 Li (fst (pinv Li e)) ->
  exists x G E, outcome (ask solve pinv (QaGrav l off fe e) (cold ab mem)) = Ok (AVec x) /\
    outcome (ask solve pinv (QoGrav (task_rows None cols) e) ab) = Ok (AVec G) /\
    outcome (ask solve pinv (QoExt (task_rows None cols) fe e) ab) = Ok (AVec E) /\
    List.length x = 6 /\ forall i, i < 6 -> coef x i = (coef G i - coef E i)%k.
Proof. exact @c59_grav. Qed.
Print Assumptions C59_gravity.

(** A robot of three prismatic and three revolute joints, moving, with everything cached. *)
Definition crane : list (@op QcScal) := six ++
  [OAsk (QAba (map qz [1; 2; 3; 4; 5; 6]%Z) (fun _ => None) plain); OAsk (QaLambda 4 (QV 1 1 1) (qz 0)); OAsk (QJac 2 (QV 0 1 0))].
Definition bot : @body QcScal := after pinv0 crane.
Definition cols_of (r : res (@answer QcScal)) : list (@motion QcScal) := match r with Ok (AMots c) => c | _ => nil end.
Lemma cols_ok r : match r with Ok (AMots _) => true | _ => false end = true -> r = Ok (AMots (cols_of r)).
Proof. destruct r as [[]| |]; try discriminate. reflexivity. Qed.
Local Notation inert := (outcome (ask solve_i pinv0 QInertia bot)).
Local Notation jac off := (outcome (ask solve_i pinv0 (QJac (-1) off) bot)).
Local Notation rows off := (task_rows None (cols_of (jac off))).
Local Notation linv := (outcome (ask solve_i pinv0 (QoLinv (rows v3zero)) bot)).
Lemma solver_b n (A : list (list (@K QcScal))) : inverseb n A (inv0 A) = true -> List.length A = n -> solver_ok solve_i n A.
Proof. intros I N. apply (solver_inverse inv0); [auto|]. intros i j Hi Hj. exact (proj1 (inverseb_ok _ _ _ I i j Hi Hj)). Qed.
Lemma unloaded h ab : reached solve_i pinv0 h ab -> forallb (fun o => negb (load_op o)) h = true -> forall k, ab_loads ab k = None.
Proof. exact (reached_noload solve_i pinv0 h ab). Qed.
Example C59_example : reached solve_i pinv0 crane bot /\ base_fixed false crane = true /\ unmixed crane = true /\ proper bot /\ articulable bot /\
  (forall k, ab_loads bot k = None) /\ ab_dof bot = 6 /\
  inert = Ok (AMat (answer_mat inert)) /\ solver_ok solve_i 6 (answer_mat inert) /\
  jac v3zero = Ok (AMots (cols_of (jac v3zero))) /\ one_threshold (qz 0) crane /\
  linv = Ok (AMat (answer_mat linv)) /\ penrose 6 (answer_mat linv) (fst (pinv0 (answer_mat linv) (qz 0))) /\
  fracs (outcome (ask solve_i pinv0 (QaCC (-1) (QV 1 2 3) (qz 0)) bot)) <> map (fun _ => (0, 1)%Z) (seq 0 6).
Proof.
  split; [apply after_reached; vm_compute; reflexivity|]. do 2 (split; [reflexivity|]).
  split; [apply properb_ok; vm_compute; reflexivity|]. split; [apply articulableb_ok; vm_compute; reflexivity|].
  split; [|split; [vm_compute; reflexivity|]].
  { apply (unloaded crane); [apply after_reached; vm_compute; reflexivity|reflexivity]. }
  split; [apply answer_mat_ok; vm_compute; reflexivity|].
  split; [apply solver_b; vm_compute; reflexivity|]. split; [apply cols_ok; vm_compute; reflexivity|]. split; [apply no_threshold; reflexivity|].
  split; [apply answer_mat_ok; vm_compute; reflexivity|]. split; [apply penroseb_ok; vm_compute; reflexivity|]. vm_compute. discriminate.
Qed.

(** With an offset it is not the inverse inertia at the offset point. *)
Theorem C59_offset_refuted : exists solve pinv h (ab : @body QcScal) l A off cols M N,
  reached solve pinv h ab /\ base_fixed false h = true /\ unmixed h = true /\ proper ab /\ articulable ab /\ (forall k, ab_loads ab k = None) /\
  outcome (ask solve pinv QInertia ab) = Ok (AMat A) /\ solver_ok solve (ab_dof ab) A /\
  outcome (ask solve pinv (QJac l off) ab) = Ok (AMots cols) /\
  outcome (ask solve pinv (QaLinv l off) ab) = Ok (AMat M) /\ outcome (ask solve pinv (QoLinv (task_rows None cols)) ab) = Ok (AMat N) /\ M <> N.
Proof.
  destruct C59_example as (R & B & U & P & AR & NL & D & HA & SO & _).
  exists solve_i, pinv0, crane, bot, (-1)%Z, (answer_mat inert), (QV 1 2 3), (cols_of (jac (QV 1 2 3))),
    (answer_mat (outcome (ask solve_i pinv0 (QaLinv (-1) (QV 1 2 3)) bot))), (answer_mat (outcome (ask solve_i pinv0 (QoLinv (rows (QV 1 2 3))) bot))).
  split; [exact R|]. split; [exact B|]. split; [exact U|]. split; [exact P|]. split; [exact AR|]. split; [exact NL|]. split; [exact HA|].
  split; [rewrite D; exact SO|].
  assert (E : jac (QV 1 2 3) = Ok (AMots (cols_of (jac (QV 1 2 3))))) by (apply cols_ok; vm_compute; reflexivity). split; [exact E|]. clear E.
  split; [apply answer_mat_ok; vm_compute; reflexivity|].
  split; [apply answer_mat_ok; vm_compute; reflexivity|]. intros E. apply (f_equal (map (map frac))) in E. vm_compute in E. discriminate.
Qed.
Print Assumptions C59_offset_refuted.
(** Nor is the gravity answer the sum of the gravity and external forces, as the equations
    of motion have them (C36_projected). *)
Theorem C59_external_refuted : exists solve pinv h (ab : @body QcScal) l A cols fe e Li mem x G E,
  reached solve pinv h ab /\ base_fixed false h = true /\ unmixed h = true /\ proper ab /\ articulable ab /\ (forall k, ab_loads ab k = None) /\
  outcome (ask solve pinv QInertia ab) = Ok (AMat A) /\ solver_ok solve (ab_dof ab) A /\
  outcome (ask solve pinv (QJac l v3zero) ab) = Ok (AMots cols) /\ one_threshold e h /\
  outcome (ask solve pinv (QoLinv (task_rows None cols)) ab) = Ok (AMat Li) /\ penrose 6 Li (fst (pinv Li e)) /\
  outcome (ask solve pinv (QaGrav l v3zero fe e) (cold ab mem)) = Ok (AVec x) /\
  outcome (ask solve pinv (QoGrav (task_rows None cols) e) ab) = Ok (AVec G) /\
  outcome (ask solve pinv (QoExt (task_rows None cols) fe e) ab) = Ok (AVec E) /\
  coef x 0 <> (coef G 0 + coef E 0)%k.
Proof.
  destruct C59_example as (R & B & U & P & AR & NL & D & HA & SO & HJ & OT & HL & PN & _). 
  exists solve_i, pinv0, crane, bot, (-1)%Z, (answer_mat inert), (cols_of (jac v3zero)), fe3, (qz 0), (answer_mat linv), (junk (qz 1)),
    (answer_vec (outcome (ask solve_i pinv0 (QaGrav (-1) v3zero fe3 (qz 0)) (cold bot (junk (qz 1)))))),
    (answer_vec (outcome (ask solve_i pinv0 (QoGrav (rows v3zero) (qz 0)) bot))), (answer_vec (outcome (ask solve_i pinv0 (QoExt (rows v3zero) fe3 (qz 0)) bot))).
  split; [exact R|]. split; [exact B|]. split; [exact U|]. split; [exact P|]. split; [exact AR|]. split; [exact NL|]. split; [exact HA|].
  split; [rewrite D; exact SO|]. split; [exact HJ|]. split; [exact OT|]. split; [exact HL|]. split; [exact PN|].
  split; [apply answer_vec_ok; vm_compute; reflexivity|]. split; [apply answer_vec_ok; vm_compute; reflexivity|]. split; [apply answer_vec_ok; vm_compute; reflexivity|].
  intros X. apply (f_equal frac) in X. vm_compute in X. discriminate.
Qed.
Print Assumptions C59_external_refuted.
