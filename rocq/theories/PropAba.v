(** C18-C22, C45: the articulated-body algorithms *)
From Coq Require Import List Arith ZArith Bool String QArith Qcanon Lia.
From Verif Require Import Scalar Base Spatial SpecGeo Joint Body Kin InvDyn FwdDyn Opspace OpspaceAba Deriv Sim Ops Instances Specs SpecCache SpecKin SpecDyn SpecAba Samples Checks AbaCache AbaApi.
Import ListNotations.
Local Open Scope k_scope.

(** A branching robot with a shifted base, a load, and full caches. *)
Definition arm : list (@op QcScal) :=
  [OSetBase (Iso m3id (QV 1 2 3))] ++ build ++ pose ++
  [ OAddLoad (q_inertia 2) 3; OSetG (QV 0 1 (-9));
    OAsk (QAba (map qz [1; 2; 3; 4]%Z) (fun _ => None) (IdOpts true true false (qz 1))); OAsk QAinvAba; OAsk QInertia ].
Definition tau4 : list (@K QcScal) := map qz [1; -2; 3; 4]%Z.
Definition plain : @id_opts QcScal := IdOpts true true false (qz 1).
Definition fe3 : @fmap QcScal := fun k => if Nat.eqb k 3 then Some (Frc (QV 1 2 3) (QV 4 5 6)) else None.
Definition articulableb (ab : @body QcScal) : bool :=
  forallb (fun i => negb (Z.eqb (fst (frac (joint_inertia ab i))) 0)) (seq 0 (ab_dof ab)).
Lemma articulableb_ok ab : articulableb ab = true -> articulable ab.
Proof.
  unfold articulableb. intros H i Hi E. rewrite forallb_forall in H. specialize (H i).
  rewrite E in H. assert (X : In i (seq 0 (ab_dof ab))) by (apply in_seq; lia). apply H in X. discriminate.
Qed.
Example arm_ok : reached solve0 pinv0 arm (robot_after arm) /\ base_fixed false arm = true /\ unmixed arm = true /\
  proper (robot_after arm) /\ articulable (robot_after arm) /\ rot (ab_Tbase (robot_after arm)) = m3id.
Proof.
  split; [apply robot_after_reached; vm_compute; reflexivity|]. do 2 (split; [reflexivity|]).
  split; [apply properb_ok; vm_compute; reflexivity|]. split; [apply articulableb_ok; vm_compute; reflexivity|].
  apply m3eqb_ok. vm_compute. reflexivity.
Qed.

(** C18.  ForwardDynamicsAba and InverseDynamics undo each other: neither torques
    nor accelerations are lost. *)
Theorem C18_aba : forall {S : Scal} {L : ScalLaws S} {PL : PosLaws S} solve pinv h ab fe o,
  reached solve pinv h ab -> base_fixed false h = true -> unmixed h = true -> proper ab -> articulable ab ->
  o_fric o = false -> (o_grav o = true -> rot (ab_Tbase ab) = m3id) ->
  (forall tau, List.length tau = ab_dof ab -> exists ddq,
     outcome (ask solve pinv (QAba tau fe o) ab) = Ok (AVec ddq) /\
     outcome (ask solve pinv (QID ddq fe o) ab) = Ok (AVec tau)) /\
  (forall ddq, List.length ddq = ab_dof ab -> exists tau,
     outcome (ask solve pinv (QID ddq fe o) ab) = Ok (AVec tau) /\
     outcome (ask solve pinv (QAba tau fe o) ab) = Ok (AVec ddq)).
Proof. exact @c18. Qed.
Print Assumptions C18_aba.
Example C18_example : match outcome (ask solve0 pinv0 (QAba tau4 fe3 plain) (robot_after arm)) with
  | Ok (AVec ddq) => fracs (outcome (ask solve0 pinv0 (QID ddq fe3 plain) (robot_after arm))) = map frac tau4
  | _ => False end.
Proof. vm_compute. reflexivity. Qed.

(** It agrees with ForwardDynamics, whose linear system then has only one solution. *)
Theorem C18_agrees : forall {S : Scal} {L : ScalLaws S} {PL : PosLaws S} solve pinv h ab fe o tau,
  reached solve pinv h ab -> base_fixed false h = true -> unmixed h = true -> proper ab -> articulable ab ->
  o_fric o = false -> (o_grav o = true -> rot (ab_Tbase ab) = m3id) ->
  exists A, outcome (ask solve pinv QInertia ab) = Ok (AMat A) /\ injective (ab_dof ab) A /\
    (solver_ok solve (ab_dof ab) A -> outcome (ask solve pinv (QAba tau fe o) ab) = outcome (ask solve pinv (QFD tau fe o) ab)).
Proof. exact @c18_fd. Qed.
Print Assumptions C18_agrees.

(** Warm or cold, whatever the options (friction and a turned base included): the
    answer does not depend on the cache.  Needs no arithmetic law but commutativity. *)
Theorem C18_fresh : forall {S : Scal} {AC : AddComm S} solve pinv h ab tau fe o mem,
  reached solve pinv h ab -> base_fixed false h = true -> unmixed h = true ->
  outcome (ask solve pinv (QAba tau fe o) ab) = outcome (ask solve pinv (QAba tau fe o) (cold ab mem)).
Proof. exact @c18_fresh. Qed.
Print Assumptions C18_fresh.

(** C19 *)
Theorem C19_chain : forall {S : Scal} {L : ScalLaws S} {PL : PosLaws S} solve pinv h ab,
  reached solve pinv h ab -> base_fixed false h = true -> unmixed h = true -> proper ab -> articulable ab -> serial ab ->
  exists A M, outcome (ask solve pinv QInertia ab) = Ok (AMat A) /\ outcome (ask solve pinv QAinvAba ab) = Ok (AMat M) /\
    inverse_of (ab_dof ab) A M /\ inverse_of (ab_dof ab) M A.
Proof. exact @c19. Qed.
Print Assumptions C19_chain.
Definition chain : list (@op QcScal) :=
  [ OSetBase q_iso; OAdd (q_link "a" JRz iso_id 2) (-1); OAdd (q_link "b" JPx q_iso 1) 0; OAdd (q_link "c" JRy q_iso 3) 1;
    OSetQ [qq 1 2; qz 1; qz 2]; OAddLoad (q_inertia 2) 1; OAsk QAinvAba; OSetQ [qq 1 2; qz 1; qz 3] ].
Example C19_example : reached solve0 pinv0 chain (robot_after chain) /\ base_fixed false chain = true /\ unmixed chain = true /\
  proper (robot_after chain) /\ articulable (robot_after chain) /\ serial (robot_after chain) /\ ab_dof (robot_after chain) = 3%nat.
Proof.
  split; [apply robot_after_reached; vm_compute; reflexivity|]. do 2 (split; [reflexivity|]).
  split; [apply properb_ok; vm_compute; reflexivity|]. split; [apply articulableb_ok; vm_compute; reflexivity|].
  assert (D : ab_dof (robot_after chain) = 3%nat) by (vm_compute; reflexivity). split; [|exact D].
  intros i Hi. rewrite D in Hi. destruct i as [|[|[|i]]]; [vm_compute; reflexivity..|lia].
Qed.

(** Any tree: the entries of related links are those of the inverse. *)
Theorem C19_related : forall {S : Scal} {L : ScalLaws S} {PL : PosLaws S} solve pinv h ab,
  reached solve pinv h ab -> base_fixed false h = true -> unmixed h = true -> proper ab -> articulable ab ->
  exists A M B, outcome (ask solve pinv QInertia ab) = Ok (AMat A) /\ outcome (ask solve pinv QAinvAba ab) = Ok (AMat M) /\
    inverse_of (ab_dof ab) A B /\ inverse_of (ab_dof ab) B A /\
    forall i j, (i < ab_dof ab)%nat -> (j < ab_dof ab)%nat -> related ab i j -> entry M i j = entry B i j.
Proof. exact @c19_related. Qed.
Print Assumptions C19_related.
Example C19_related_example : related (robot_after arm) 0 3 /\ ~ related (robot_after arm) 1 2.
Proof. split; [left; vm_compute; auto|intros [H|H]; vm_compute in H; intuition discriminate]. Qed.

(** C20 *)
Theorem C20_uninitialised : forall {S : Scal} solve pinv h ab mem i j,
  reached solve pinv h ab -> (i < ab_dof ab)%nat -> (j < ab_dof ab)%nat -> ~ related ab i j ->
  exists M, outcome (ask solve pinv QAinvAba (cold ab mem)) = Ok (AMat M) /\ entry M i j = c_Ainv (ca_aba mem) i j.
Proof. exact @c20. Qed.
Print Assumptions C20_uninitialised.
Example C20_example : fracs (outcome (ask solve0 pinv0 QAinvAba (cold (robot_after arm) (junk (qz 3))))) <>
                      fracs (outcome (ask solve0 pinv0 QAinvAba (cold (robot_after arm) (junk (qz 4))))).
Proof. vm_compute. discriminate. Qed.

(** C21.  What ForwardDynamicsAba solves is the equation of motion of the robot whose
    gravity vector is the given one read in base coordinates, wherever the base is. *)
Theorem C21_base_frame : forall {S : Scal} {L : ScalLaws S} {PL : PosLaws S} solve pinv h ab fe o,
  reached solve pinv h ab -> base_fixed false h = true -> unmixed h = true -> proper ab -> articulable ab -> o_fric o = false ->
  exists ab', set_g (m3mulv (rot (ab_Tbase ab)) (mlin (ab_g ab))) ab = Ret ab' tt /\
  (forall tau, List.length tau = ab_dof ab -> exists ddq,
     outcome (ask solve pinv (QAba tau fe o) ab) = Ok (AVec ddq) /\
     outcome (ask solve pinv (QID ddq fe o) ab') = Ok (AVec tau)) /\
  (forall ddq, List.length ddq = ab_dof ab -> exists tau,
     outcome (ask solve pinv (QID ddq fe o) ab') = Ok (AVec tau) /\
     outcome (ask solve pinv (QAba tau fe o) ab) = Ok (AVec ddq)).
Proof. exact @c21. Qed.
Print Assumptions C21_base_frame.
(** A base on its side. *)
Definition q_side : @iso QcScal := Iso (M3 (QV 1 0 0) (QV 0 0 (-1)) (QV 0 1 0)) (QV 0 0 0).
Definition wall : list (@op QcScal) := [OSetBase q_side] ++ build ++ pose.
Theorem C21_refuted : exists solve pinv h (ab : @body QcScal) tau ddq tau',
  reached solve pinv h ab /\ base_fixed false h = true /\ unmixed h = true /\ proper ab /\ articulable ab /\
  outcome (ask solve pinv (QAba tau (fun _ => None) plain) ab) = Ok (AVec ddq) /\
  outcome (ask solve pinv (QID ddq (fun _ => None) plain) ab) = Ok (AVec tau') /\ tau' <> tau.
Proof.
  exists solve0, pinv0, wall, (robot_after wall), tau4, (answer_vec (outcome (ask solve0 pinv0 (QAba tau4 (fun _ => None) plain) (robot_after wall)))),
    (answer_vec (outcome (ask solve0 pinv0 (QID (answer_vec (outcome (ask solve0 pinv0 (QAba tau4 (fun _ => None) plain) (robot_after wall)))) (fun _ => None) plain) (robot_after wall)))).
  split; [apply robot_after_reached; vm_compute; reflexivity|]. do 2 (split; [reflexivity|]).
  split; [apply properb_ok; vm_compute; reflexivity|]. split; [apply articulableb_ok; vm_compute; reflexivity|].
  split; [apply answer_vec_ok; vm_compute; reflexivity|]. split; [apply answer_vec_ok; vm_compute; reflexivity|].
  intros E. apply (f_equal (map frac)) in E. vm_compute in E. discriminate.
Qed.
Print Assumptions C21_refuted.

(** C22.  A two-link robot, the operational point on the first link: there the inverse
    inertia has rank one and [pinv1] is its pseudo-inverse. *)
Definition pinv1 (A : list (list (@K QcScal))) (eps : @K QcScal) : list (list (@K QcScal)) * bool :=
  let s := total (map (fun r => total (map (fun x => x * x) r)) A) in
  (vec 6 (fun i => vec 6 (fun j => entry A j i / s)), false).
Definition pair : list (@op QcScal) := [ OAdd (q_link "a" JRz q_side 2) (-1); OAdd (q_link "b" JRx q_iso 1) 0 ].
Definition penroseb (M X : list (list (@K QcScal))) : bool :=
  let prod := fun A B i j => total (map (fun k => A i k * B k j) (seq 0 6)) in
  let m := entry M in let x := entry X in
  forallb (fun i => forallb (fun j =>
    keq (prod (prod m x) m i j) (m i j) && keq (prod (prod x m) x i j) (x i j) &&
    keq (prod m x i j) (prod m x j i) && keq (prod x m i j) (prod x m j i)) (seq 0 6)) (seq 0 6).
Lemma penroseb_ok M X : penroseb M X = true -> penrose 6 M X.
Proof.
  unfold penroseb. intros H i j Hi Hj. rewrite forallb_forall in H. assert (Xi : In i (seq 0 6)) by (apply in_seq; lia). apply H in Xi.
  rewrite forallb_forall in Xi. assert (Xj : In j (seq 0 6)) by (apply in_seq; lia). apply Xi in Xj.
  apply andb_true_iff in Xj. destruct Xj as [Xj X4]. apply andb_true_iff in Xj. destruct Xj as [Xj X3]. apply andb_true_iff in Xj. destruct Xj as [X1 X2].
  apply (@keq_sound QcScal QcEq) in X1, X2, X3, X4. split; [exact X1|split; [exact X2|split; [exact X3|exact X4]]].
Qed.
Theorem C22_history : exists solve pinv h (ab ab1 : @body QcScal) link off eps M x y,
  reached solve pinv h ab /\ base_fixed false h = true /\ unmixed h = true /\ proper ab /\ articulable ab /\
  outcome (ask solve pinv (QaLinv link off) ab) = Ok (AMat M) /\ penrose 6 M (fst (pinv M eps)) /\
  ask solve pinv (QaGrav link off (fun _ => None) eps) ab = Ok (ab1, AVec x) /\
  outcome (ask solve pinv (QaGrav link off (fun _ => None) eps) ab1) = Ok (AVec y) /\ x <> y.
Proof.
  set (ab := robot_with pinv1 pair). set (q := QaGrav 0 v3zero (fun _ => None) (qz 0)).
  set (r := ask solve0 pinv1 q ab).
  set (ab1 := match r with Ok (b, _) => b | _ => ab end).
  exists solve0, pinv1, pair, ab, ab1, 0%Z, v3zero, (qz 0), (answer_mat (outcome (ask solve0 pinv1 (QaLinv 0 v3zero) ab))),
    (answer_vec (outcome r)), (answer_vec (outcome (ask solve0 pinv1 q ab1))).
  split; [apply robot_with_reached; vm_compute; reflexivity|]. do 2 (split; [reflexivity|]).
  split; [apply properb_ok; vm_compute; reflexivity|]. split; [apply articulableb_ok; vm_compute; reflexivity|].
  split; [apply answer_mat_ok; vm_compute; reflexivity|]. split; [apply penroseb_ok; vm_compute; reflexivity|].
  split; [|split; [apply answer_vec_ok; vm_compute; reflexivity|]].
  - apply ask_split. vm_compute. reflexivity.
  - intros E. apply (f_equal (map frac)) in E. vm_compute in E. discriminate.
Qed.
Print Assumptions C22_history.

(** C45.  The operational-space articulated-body queries ignore loads. *)
Theorem C45_ignored : forall {S : Scal} solve pinv o q ab ab1 mem,
  load_op o = true -> step solve pinv o ab = Some ab1 -> opspace_aba (OAsk q) = true ->
  outcome (ask solve pinv q (cold ab1 mem)) = outcome (ask solve pinv q (cold ab mem)).
Proof. exact @c45_ignored. Qed.
Print Assumptions C45_ignored.
Example C45_ignored_example : exists ab1, step solve0 pinv0 (OAddLoad (q_inertia 2) 1) (robot_after pair) = Some ab1.
Proof. eexists. reflexivity. Qed.
(** They leave their load-free articulated inertias in the cache that
    ForwardDynamicsAba reads, whose answer is then wrong. *)
Theorem C45_poison : exists solve pinv h (ab ab1 : @body QcScal) link off ans tau x y,
  reached solve pinv h ab /\ base_fixed false h = true /\ unmixed h = true /\ proper ab /\ articulable ab /\ rot (ab_Tbase ab) = m3id /\
  outcome (ask solve pinv (QAba tau (fun _ => None) plain) ab) = Ok (AVec x) /\
  ask solve pinv (QaLinv link off) ab = Ok (ab1, ans) /\
  outcome (ask solve pinv (QAba tau (fun _ => None) plain) ab1) = Ok (AVec y) /\ x <> y.
Proof.
  set (h := pair ++ [OAddLoad (q_inertia 2) 1]). set (ab := robot_after h).
  set (r := ask solve0 pinv0 (QaLinv 1 v3zero) ab). set (tau := [qz 1; qz 2]).
  set (ab1 := match r with Ok (b, _) => b | _ => ab end).
  exists solve0, pinv0, h, ab, ab1, 1%Z, v3zero, (answer_of (outcome r)), tau,
    (answer_vec (outcome (ask solve0 pinv0 (QAba tau (fun _ => None) plain) ab))),
    (answer_vec (outcome (ask solve0 pinv0 (QAba tau (fun _ => None) plain) ab1))).
  split; [apply robot_after_reached; vm_compute; reflexivity|]. do 2 (split; [reflexivity|]).
  split; [apply properb_ok; vm_compute; reflexivity|]. split; [apply articulableb_ok; vm_compute; reflexivity|].
  split; [apply m3eqb_ok; vm_compute; reflexivity|].
  split; [apply answer_vec_ok; vm_compute; reflexivity|]. split; [|split; [apply answer_vec_ok; vm_compute; reflexivity|]].
  - apply ask_split_any. vm_compute. reflexivity.
  - intros E. apply (f_equal (map frac)) in E. vm_compute in E. discriminate.
Qed.
Print Assumptions C45_poison.
