(** C58: robots that stay where they are *)
From Coq Require Import List Arith ZArith Bool String QArith Qcanon Reals Lra Lia.
From Verif Require Import Scalar Base Spatial SpecGeo Joint Body Kin InvDyn FwdDyn Opspace OpspaceAba Deriv Sim Ops Control JointControl Instances Specs SpecCache SpecKin SpecDyn SpecOps SpecControl SpecSim SpecHold Samples Checks
  BigSum DynProofs DynApi OpsTask ControlProofs DiscreteSamples PropControl HoldProofs HoldReal.
Import ListNotations.
Local Open Scope nat_scope.

(** C58.  Integrate leaves a robot at rest exactly where it is when the torques balance
    gravity (if simulated) and the external forces: whatever the method, the time steps
    (also negative) and what is remembered, and also when positions are clipped, if they
    are within their limits. *)
Theorem C58_balance : forall {S : Scal} {L : ScalLaws S} {PL : PosLaws S} solve pinv h ab A G E tau fe o steps,
  reached solve pinv h ab -> base_fixed false h = true -> proper ab ->
  outcome (ask solve pinv QInertia ab) = Ok (AMat A) -> solver_ok solve (ab_dof ab) A -> injective (ab_dof ab) A ->
  outcome (ask solve pinv QGrav ab) = Ok (AVec G) -> outcome (ask solve pinv (QExt fe) ab) = Ok (AVec E) ->
  at_rest ab -> o_fric o = false -> List.length tau = ab_dof ab ->
  (forall i, i < ab_dof ab -> coef tau i = kadd (coef E i) (if o_grav o then coef G i else k0)) ->
  (forall io dt, In (io, dt) steps -> i_limits io = true -> in_limits ab) ->
  exists ab', integrated solve false tau fe o steps ab = Ok ab' /\ unmoved ab ab'.
Proof. exact @c58_balance. Qed.
Print Assumptions C58_balance.

(** With friction (over the reals), it is enough that what is missing from balance is at
    most the Coulomb friction plus the stiction of each joint. *)
Theorem C58_stiction : forall solve pinv h (ab : @body RScal) A G E tau fe (o : @id_opts RScal) steps,
  reached solve pinv h ab -> base_fixed false h = true -> proper ab ->
  outcome (ask solve pinv QInertia ab) = Ok (AMat A) -> solver_ok solve (ab_dof ab) A -> injective (ab_dof ab) A ->
  outcome (ask solve pinv QGrav ab) = Ok (AVec G) -> outcome (ask solve pinv (QExt fe) ab) = Ok (AVec E) ->
  at_rest ab -> o_fric o = true -> (0 <= o_stic o)%R -> List.length tau = ab_dof ab ->
  (forall i, i < ab_dof ab -> friction_coefficients (joint_i ab i) /\
     (Rabs (@coef RScal tau i - @coef RScal E i - (if o_grav o then @coef RScal G i else 0)) <= jcoulomb (joint_i ab i) + jstiction (joint_i ab i))%R) ->
  (forall io dt, In (io, dt) steps -> i_limits io = true -> in_limits ab) ->
  exists ab', integrated solve false tau fe o steps ab = Ok ab' /\ unmoved ab ab'.
Proof. exact c58_stiction. Qed.
Print Assumptions C58_stiction.

(** The task controller of the Python module at its goal, with gravity compensation (or
    without gravity): any number of calls succeed, each returns the gravity torques, and
    the robot it integrates stays exactly where it is. *)
Theorem C58_opspace : forall {S : Scal} {L : ScalLaws S} {PL : PosLaws S} {ES : EqSound S} solve pinv h ab k A G,
  reached solve pinv h ab -> base_fixed false h = true -> one_threshold k0 h -> proper ab ->
  outcome (ask solve pinv QInertia ab) = Ok (AMat A) -> solver_ok solve (ab_dof ab) A -> injective (ab_dof ab) A ->
  outcome (ask solve pinv QGrav ab) = Ok (AVec G) -> 0 < ab_dof ab ->
  (forall x dx, List.length (fst (c_pos k x dx)) = 3) -> (forall R w, List.length (fst (c_ori k R w)) = 3) ->
  (forall q dq, List.length (c_joint k q dq) = ab_dof ab) ->
  at_rest ab -> at_goal solve pinv k ab -> (c_gravity k = true \/ forall i, i < ab_dof ab -> coef G i = k0) ->
  forall n, exists ab' l, repeated (compute_opspace_control solve pinv k) n ab = Ok (ab', l) /\ unmoved ab ab' /\
    List.length l = n /\ Forall (fun '(tau, st) => List.length tau = ab_dof ab /\ forall i, i < ab_dof ab -> coef tau i = coef G i) l.
Proof. exact @c58_opspace. Qed.
Print Assumptions C58_opspace.

(** The same for the joint-space controller, with and without integration. *)
Theorem C58_joint : forall {S : Scal} {L : ScalLaws S} {PL : PosLaws S} solve pinv h ab pd joint threshold (grav : bool) A G,
  reached solve pinv h ab -> base_fixed false h = true -> proper ab ->
  outcome (ask solve pinv QInertia ab) = Ok (AMat A) -> solver_ok solve (ab_dof ab) A -> injective (ab_dof ab) A ->
  outcome (ask solve pinv QGrav ab) = Ok (AVec G) -> at_rest ab ->
  fst (pd (ab_q ab) (match joint with Some q => q | None => ab_q ab end) (ab_dq ab)) = repeat k0 (ab_dof ab) ->
  (grav = true \/ forall i, i < ab_dof ab -> coef G i = k0) ->
  forall step n, exists ab' l, repeated (joint_space_control solve pd joint threshold grav step) n ab = Ok (ab', l) /\ unmoved ab ab' /\
    List.length l = n /\ Forall (fun '(tau, st) => List.length tau = ab_dof ab /\ forall i, i < ab_dof ab -> coef tau i = coef G i) l.
Proof. exact @c58_joint. Qed.
Print Assumptions C58_joint.

(** Examples.  The robot of three prismatic and three revolute joints, posed and at rest,
    with something cached; gravity is not zero. *)
Definition parked : list (@op QcScal) :=
  slides ++ [OAdd (q_link "rx" JRx q_iso 1) 2; OAdd (q_link "ry" JRy iso_id 2) 3; OAdd (q_link "rz" JRz iso_id 1) 4;
             OSetQ [qz 1; qz 2; qz 0; qz 1; qz 0; qz 2]; OAsk QInertia; OAsk (QPos (-1) (QV 1 0 2))].
Definition bot : @body QcScal := after pinv0 parked.
Definition park : @controller QcScal :=
  let x0 := match outcome (ask solve_i pinv0 (QPos (-1) (QV 1 0 2)) bot) with Ok (AV3 x) => x | _ => v3zero end in
  let R0 := match outcome (ask solve_i pinv0 (QOri (-1)) bot) with Ok (AM3 R) => R | _ => m3id end in
  Controller (fun x dx => ([ksub (vx x0) (kadd (vx x) (coef dx 0)); ksub (vy x0) (kadd (vy x) (coef dx 1)); ksub (vz x0) (kadd (vz x) (coef dx 2))],
                           [ksub (vx x0) (vx x); ksub (vy x0) (vy x); ksub (vz x0) (vz x)]))
             (fun R w => ([ksub (vy (r0 R)) (kadd (vy (r0 R0)) (coef w 0)); ksub (vz (r1 R)) (kadd (vz (r1 R0)) (coef w 1)); ksub (vx (r2 R)) (kadd (vx (r2 R0)) (coef w 2))], []))
             (fun q dq => map (fun i => ksub (coef (ab_q bot) i) (kadd (coef q i) (coef dq i))) (seq 0 6))
             (QV 1 0 2) None (qq 1 10) (qq 1 10) (qq 1 10) (qq 1 10) true (qq 1 100).
Definition zerob (m : nat) (l : list (@K QcScal)) : bool := Nat.eqb (List.length l) m && forallb (fun x => keq x k0) l.
Lemma zerob_ok m l : zerob m l = true -> l = repeat k0 m.
Proof.
  unfold zerob. revert m. induction l as [|x l IH]; intros [|m] H; try discriminate; [reflexivity|]. cbn in H. apply andb_prop in H. destruct H as [H1 H2]. apply andb_prop in H2. destruct H2 as [H2 H3].
  cbn [repeat]. f_equal; [apply keq_sound; auto|]. apply IH. cbn. rewrite H1, H3. reflexivity.
Qed.
Definition in_limitsb (ab : @body QcScal) : bool := forallb (fun i => let j := rb_joint (nth i (ab_rbs ab) rb_default) in
  negb (blt (jqmax j) (Fin (coef (ab_q ab) i))) && negb (blt (Fin (coef (ab_q ab) i)) (jqmin j))) (seq 0 (ab_dof ab)).
Lemma in_limitsb_ok ab : in_limitsb ab = true -> in_limits ab.
Proof.
  intros M. unfold in_limitsb in M. rewrite forallb_forall in M. intros i Hi. specialize (M i ltac:(apply in_seq; lia)).
  apply andb_prop in M. destruct M as [M1 M2]. apply negb_true_iff in M1, M2. split; [exact M1|exact M2].
Qed.
Lemma vec_ex (r : res (@answer QcScal)) : match r with Ok (AVec _) => true | _ => false end = true -> exists v, r = Ok (AVec v).
Proof. destruct r as [[]| |]; try discriminate. eauto. Qed.
Lemma pos_ex (r : res (@answer QcScal)) (f : v3 -> list (@K QcScal)) m : match r with Ok (AV3 x) => zerob m (f x) | _ => true end = true -> forall x, r = Ok (AV3 x) -> f x = repeat k0 m.
Proof. intros H x ->. apply zerob_ok. exact H. Qed.
Lemma ori_ex (r : res (@answer QcScal)) (f : m3 -> list (@K QcScal)) m : match r with Ok (AM3 x) => zerob m (f x) | _ => true end = true -> forall x, r = Ok (AM3 x) -> f x = repeat k0 m.
Proof. intros H x ->. apply zerob_ok. exact H. Qed.
Definition gravity_of (ab : @body QcScal) := outcome (ask solve_i pinv0 QGrav ab).
Example C58_example : reached solve_i pinv0 parked bot /\ base_fixed false parked = true /\ one_threshold k0 parked /\ proper bot /\ ab_dof bot = 6 /\
  (exists A, outcome (ask solve_i pinv0 QInertia bot) = Ok (AMat A) /\ solver_ok solve_i 6 A /\ injective 6 A) /\
  (exists G, gravity_of bot = Ok (AVec G)) /\ fracs (gravity_of bot) <> map (fun _ => (0, 1)%Z) (seq 0 6) /\
  at_rest bot /\ in_limits bot /\ at_goal solve_i pinv0 park bot /\ c_gravity park = true /\ klt k0 (c_dt park) = true.
Proof.
  assert (D : ab_dof bot = 6) by (vm_compute; reflexivity).
  split; [apply after_reached; vm_compute; reflexivity|]. split; [reflexivity|]. split; [intros q y [H|[H|[H|[H|[H|[H|[H|[H|[H|[]]]]]]]]]]; try discriminate H; inversion H; subst; intros []|].
  split; [apply properb_ok; vm_compute; reflexivity|]. split; [exact D|]. split; [|split; [|split; [|split; [|split; [|split; [|split; vm_compute; reflexivity]]]]]].
  - pose (r := outcome (ask solve_i pinv0 QInertia bot)). exists (answer_mat r). fold r.
    assert (I : inverseb 6 (answer_mat r) (inv0 (answer_mat r)) = true) by (vm_compute; reflexivity).
    assert (N : List.length (answer_mat r) = 6%nat) by (vm_compute; reflexivity).
    assert (M : match r with Ok (AMat _) => true | _ => false end = true) by (vm_compute; reflexivity).
    pose proof (inverseb_ok _ _ _ I) as H. clear I. clearbody r. split; [apply answer_mat_ok; exact M|]. split.
    + apply (solver_inverse inv0); [auto|]. intros i j Hi Hj. exact (proj1 (H i j Hi Hj)).
    + apply (injective_inverse 6 _ (inv0 (answer_mat r))). intros i j Hi Hj. exact (proj2 (H i j Hi Hj)).
  - refine (vec_ex (gravity_of bot) _). vm_compute. reflexivity.
  - vm_compute. discriminate.
  - assert (M : zerob 6 (ab_dq bot) = true) by (vm_compute; reflexivity). apply zerob_ok in M. intros i _. rewrite M. apply coef_rep.
  - apply in_limitsb_ok. vm_compute. reflexivity.
  - split; [|split].
    + apply (pos_ex _ (fun x => fst (c_pos park x [k0; k0; k0])) 3). vm_compute. reflexivity.
    + apply (ori_ex _ (fun R => fst (c_ori park R [k0; k0; k0])) 3). vm_compute. reflexivity.
    + rewrite D. apply zerob_ok. vm_compute. reflexivity.
Qed.
(** The same robot falls when nothing holds it. *)
Example C58_falls : match integrated solve_i false (repeat k0 6) (fun _ => None) (IdOpts true true false (klit 1 100)) [(IntOpts false MRk4, qq 1 100)] bot with
  Ok ab' => negb (zerob 6 (ab_dq ab')) | _ => false end = true.
Proof. vm_compute. reflexivity. Qed.
(** A joint controller at its goal. *)
Definition pd_q (q q_des dq : list (@K QcScal)) : list (@K QcScal) * list (@K QcScal) :=
  (map (fun i => ksub (ksub (coef q_des i) (coef q i)) (coef dq i)) (seq 0 6), []).
Example C58_joint_example : fst (pd_q (ab_q bot) (ab_q bot) (ab_dq bot)) = repeat k0 6.
Proof. apply zerob_ok. vm_compute. reflexivity. Qed.

(** Over the reals: a block of mass 2 on a rail along x, pulled by gravity along the rail
    with 1 m/s^2; Coulomb friction 1 and stiction 2 hold the 2 N. *)
Definition r_block : @rigid_body RScal :=
  Rb "block" [] (-1) (-1) iso_id (@Inr RScal 2%R (@v3zero RScal) (@m3id RScal))
     (@Jnt RScal JPx (subspace_of JPx) (@NInf RScal) (@PInf RScal) (@PInf RScal) (@PInf RScal) 1%R 0%R 2%R).
Definition r_rail : list (@op RScal) := [OAdd r_block (-1); OSetG (@V3 RScal 1%R 0%R 0%R)].
Definition r_solve (A : list (list (@K RScal))) (b : list (@K RScal)) : list (@K RScal) := [(@coef RScal b 0 / @entry RScal A 0 0)%R].
Definition r_bot : @body RScal :=
  match run r_solve (@pinv0 RScal) r_rail (body_new "r" (@junk RScal 0%R)) with Some ab => ab | None => body_new "none" (@junk RScal 0%R) end.
Lemma r_one (x : R) : (x <> 0)%R -> @solver_ok RScal r_solve 1 [[x]] /\ @injective RScal 1 [[x]].
Proof.
  intros H. split.
  - intros b Hb. split; [reflexivity|]. intros i Hi. assert (i = 0) by lia. subst i. unfold row_times, r_solve. cbn. field. exact H.
  - intros v Hv E i Hi. assert (i = 0) by lia. subst i. specialize (E 0 ltac:(lia)). unfold row_times in E. cbn in E.
    assert (X : (x * @coef RScal v 0 = 0)%R) by (rewrite <- E; unfold coef, entry; cbn; ring). apply Rmult_integral in X. destruct X; [contradiction|auto].
Qed.
Lemma rigid_id_r : rigid (@iso_id RScal).
Proof. split; [|cbn; ring]. cbn. unfold m3mul, m3tr, m3mulv, m3id, v3dot. cbn. f_equal; f_equal; ring. Qed.
Example C58_stiction_example : reached r_solve (@pinv0 RScal) r_rail r_bot /\ base_fixed false r_rail = true /\ proper r_bot /\ at_rest r_bot /\ in_limits r_bot /\
  (exists A, outcome (ask r_solve (@pinv0 RScal) QInertia r_bot) = Ok (AMat A) /\ solver_ok r_solve (ab_dof r_bot) A /\ injective (ab_dof r_bot) A) /\
  (exists E, outcome (ask r_solve (@pinv0 RScal) (QExt (fun _ => None)) r_bot) = Ok (AVec E) /\
   exists G, outcome (ask r_solve (@pinv0 RScal) QGrav r_bot) = Ok (AVec G) /\ @coef RScal G 0 = (-2)%R /\
   forall i, i < ab_dof r_bot -> friction_coefficients (joint_i r_bot i) /\
     (Rabs (@coef RScal [0%R] i - @coef RScal E i - @coef RScal G i) <= jcoulomb (joint_i r_bot i) + jstiction (joint_i r_bot i))%R).
Proof.
  split; [exists "r"%string, (@junk RScal 0%R); reflexivity|]. split; [reflexivity|].
  assert (X : forall k, k < ab_dof r_bot -> k = 0) by (intros k Hk; change (ab_dof r_bot) with 1 in Hk; lia).
  split; [|split; [|split; [|split]]].
  - constructor; [split; [apply rigid_id_r|constructor; [apply rigid_id_r|constructor]]| |]; intros k Hk; rewrite (X k Hk); [cbn; apply Rltb_lt; lra|repeat constructor].
  - intros i Hi. rewrite (X i Hi). reflexivity.
  - intros i Hi. rewrite (X i Hi). split; reflexivity.
  - eexists. split; [reflexivity|]. apply r_one. cbn. lra.
  - eexists. split; [reflexivity|]. eexists. split; [reflexivity|]. split.
    + cbn. ring.
    + intros i Hi. rewrite (X i Hi). split; [cbn; unfold friction_coefficients; cbn; lra|]. match goal with |- (Rabs ?x <= _)%R => replace x with 2%R by (cbn; ring) end. cbn. rewrite Rabs_right; lra.
Qed.
