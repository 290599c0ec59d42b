(** C36-C39: operational space *)
From Coq Require Import List Arith ZArith Bool String QArith Qcanon Reals Lra Lia.
From Verif Require Import Scalar Base Spatial SpecGeo Joint Body Kin InvDyn FwdDyn Opspace OpspaceAba Deriv Sim Ops Instances Specs SpecCache SpecKin SpecDyn SpecAba SpecOps Samples Checks OpsCache OpsApi OpsTask OpsDefects PropDyn PropAba PropReal PropSim.
Import ListNotations.
Local Open Scope nat_scope.

(** C36.  [Li] = J A^-1 J' (X solves A X = J'); Lambda is the pseudo-inverse of it.
    Where that is its inverse: J Jbar = I, A Jbar = J' Lambda, and N = I - Jbar J is a
    projection with J N = 0, self-adjoint for the inertia matrix. *)
Theorem C36_inverses : forall {S : Scal} {L : ScalLaws S} {PL : PosLaws S} {ES : EqSound S} solve pinv h ab J e m,
  reached solve pinv h ab -> base_fixed false h = true -> one_threshold e h -> proper ab -> sized m (ab_dof ab) J ->
  exists A Li La Jb,
    outcome (ask solve pinv QInertia ab) = Ok (AMat A) /\
    outcome (ask solve pinv (QoLinv J) ab) = Ok (AMat Li) /\
    outcome (ask solve pinv (QoLambda J e) ab) = Ok (AMat La) /\
    outcome (ask solve pinv (QoJbar J e) ab) = Ok (AMat Jb) /\
    sized m m Li /\ sized (ab_dof ab) m Jb /\ La = fst (pinv Li e) /\
    (solver_ok solve (ab_dof ab) A ->
     (exists X, sized (ab_dof ab) m X /\
        (forall k i, k < ab_dof ab -> i < m -> prod_at (ab_dof ab) A X k i = entry J i k) /\
        (forall i j, i < m -> j < m -> entry Li i j = prod_at (ab_dof ab) J X i j)) /\
     (forall i j, i < m -> j < m -> entry Li i j = entry Li j i) /\
     (inverse_of m Li (fst (pinv Li e)) ->
      inverse_of m Li La /\
      (forall i j, i < m -> j < m -> entry La i j = entry La j i) /\
      (forall i j, i < m -> j < m -> prod_at (ab_dof ab) J Jb i j = delta i j) /\
      (forall k i, k < ab_dof ab -> i < m -> prod_at (ab_dof ab) A Jb k i = total (map (fun a => kmul (entry J a k) (entry La a i)) (seq 0 m))) /\
      (forall N, (forall i j, i < ab_dof ab -> j < ab_dof ab -> entry N i j = ksub (delta i j) (prod_at m Jb J i j)) ->
        forall i j, j < ab_dof ab ->
          (i < ab_dof ab -> prod_at (ab_dof ab) N N i j = entry N i j) /\
          (i < m -> prod_at (ab_dof ab) J N i j = k0) /\
          (i < ab_dof ab -> prod_at (ab_dof ab) A N i j = prod_at (ab_dof ab) A N j i)))).
Proof. exact @c36_inverses. Qed.
Print Assumptions C36_inverses.
(** Gravity and external forces in task space. *)
Theorem C36_projected : forall {S : Scal} {L : ScalLaws S} {ES : EqSound S} solve pinv h ab J e m fe,
  reached solve pinv h ab -> base_fixed false h = true -> one_threshold e h -> sized m (ab_dof ab) J ->
  exists G E Jb g f,
    outcome (ask solve pinv QGrav ab) = Ok (AVec G) /\ outcome (ask solve pinv (QExt fe) ab) = Ok (AVec E) /\
    outcome (ask solve pinv (QoJbar J e) ab) = Ok (AMat Jb) /\
    outcome (ask solve pinv (QoGrav J e) ab) = Ok (AVec g) /\ outcome (ask solve pinv (QoExt J fe e) ab) = Ok (AVec f) /\
    List.length g = m /\ List.length f = m /\
    forall i, i < m ->
      coef g i = total (map (fun k => kmul (entry Jb k i) (coef G k)) (seq 0 (ab_dof ab))) /\
      coef f i = total (map (fun k => kmul (entry Jb k i) (coef E k)) (seq 0 (ab_dof ab))).
Proof. exact @c36_projected. Qed.
Print Assumptions C36_projected.
(** The torques returned for the first of a stack of tasks, plus those of any further
    tasks (any number, any options) run in its nullspace, accelerate the first task as
    commanded: forward dynamics under the same gravity and external forces. *)
Theorem C36_stack : forall {S : Scal} {L : ScalLaws S} {PL : PosLaws S} {ES : EqSound S} solve pinv h ab e t0 rest ab' tau A Li m,
  reached solve pinv h ab -> base_fixed false h = true -> one_threshold e h -> proper ab ->
  outcome (ask solve pinv QInertia ab) = Ok (AMat A) -> solver_ok solve (ab_dof ab) A ->
  sized m (ab_dof ab) (t_J t0) -> List.length (t_ddx t0) = m ->
  outcome (ask solve pinv (QoLinv (t_J t0)) ab) = Ok (AMat Li) -> inverse_of m Li (fst (pinv Li e)) ->
  p_svd (t_o t0) = e -> p_cc (t_o t0) = false -> p_fric (t_o t0) = false -> klt k0 (p_facc (t_o t0)) = false ->
  (t_fe_empty t0 = true -> forall k, t_fe t0 k = None) ->
  control solve pinv (t0 :: rest) nil (repeat k0 (ab_dof ab)) ab = Some (ab', tau) ->
  forall st, exists ddq, outcome (ask solve pinv (QFD tau (t_fe t0) (IdOpts (p_grav (t_o t0)) false false st)) ab') = Ok (AVec ddq) /\
    List.length ddq = ab_dof ab /\
    forall i, i < m -> row_times (ab_dof ab) (t_J t0) ddq i = coef (t_ddx t0) i.
Proof. exact @c36_stack. Qed.
Print Assumptions C36_stack.

(** Two joints, a task of one row above another. *)
Definition row1 : list (list (@K QcScal)) := [[qz 1; qz 2]].
Definition push : @fmap QcScal := fun k => if Nat.eqb k 1 then Some (Frc (QV 1 2 3) (QV 0 1 0)) else None.
Definition task1 : task := Task row1 [qz 5] push false (OpsOpts true false false (qz 0) (qz 0) (qz 0)).
Definition task2 : task := Task [[qz 1; qz 1]] [qz (-7)] push false (OpsOpts true false true (qz 0) (qz 1) (qz 2)).
Lemma no_threshold (S : Scal) (e : @K S) (h : list op) : forallb (fun o => match o with OAsk q => match thresholds q with nil => true | _ => false end | _ => true end) h = true -> one_threshold e h.
Proof.
  intros H q x Hq Hx. rewrite forallb_forall in H. specialize (H _ Hq). cbn in H. destruct (thresholds q); [destruct Hx|discriminate].
Qed.
Example C36_example : exists A Li ab' tau,
  reached solve0 pinv0 two (robot_after two) /\ base_fixed false two = true /\ one_threshold (qz 0) two /\ proper (robot_after two) /\
  outcome (ask solve0 pinv0 QInertia (robot_after two)) = Ok (AMat A) /\ solver_ok solve0 (ab_dof (robot_after two)) A /\
  sized 1 (ab_dof (robot_after two)) row1 /\
  outcome (ask solve0 pinv0 (QoLinv row1) (robot_after two)) = Ok (AMat Li) /\ inverse_of 1 Li (fst (pinv0 Li (qz 0))) /\
  control solve0 pinv0 [task1; task2] nil (repeat k0 (ab_dof (robot_after two))) (robot_after two) = Some (ab', tau).
Proof.
  destruct C17_example as (A & R & B & P & EA & D & SO & _).
  assert (X : is_some (control solve0 pinv0 [task1; task2] nil (repeat k0 (ab_dof (robot_after two))) (robot_after two)) = true) by (vm_compute; reflexivity).
  apply is_some_ex in X. destruct X as [[ab' tau] X].
  exists A, (answer_mat (outcome (ask solve0 pinv0 (QoLinv row1) (robot_after two)))), ab', tau.
  split; [exact R|]. split; [exact B|]. split; [apply no_threshold; reflexivity|]. split; [exact P|]. split; [exact EA|].
  rewrite D in *. split; [exact SO|]. split; [split; [reflexivity|repeat constructor]|]. split; [apply answer_mat_ok; vm_compute; reflexivity|]. split; [|exact X].
  intros [|i] [|j] Hi Hj; try lia. split; apply Qc_is_canon; vm_compute; reflexivity.
Qed.

(** C37.  Quantities that do not use Jbar are never stale, whatever thresholds were
    used before. *)
Theorem C37_fresh_lambda : forall {S : Scal} solve pinv {AC : AddComm S} {ES : EqSound S} h ab mem q,
  reached solve pinv h ab -> base_fixed false h = true -> task_query q = true -> thresholds q = nil ->
  outcome (ask solve pinv q ab) = outcome (ask solve pinv q (cold ab mem)).
Proof. exact @c37_any. Qed.
Print Assumptions C37_fresh_lambda.
(** With one threshold throughout, nothing is. *)
Theorem C37_fresh_one : forall {S : Scal} solve pinv {AC : AddComm S} {ES : EqSound S} e h ab mem q,
  reached solve pinv h ab -> base_fixed false h = true -> one_threshold e h -> task_query q = true -> (forall x, In x (thresholds q) -> x = e) ->
  outcome (ask solve pinv q ab) = outcome (ask solve pinv q (cold ab mem)).
Proof. exact @c37_one. Qed.
Print Assumptions C37_fresh_one.
(** The defect: three calls. *)
Theorem C37_stale : forall {S : Scal} solve pinv {AC : AddComm S} {ES : EqSound S} h ab J e1 e2 ab1 ab2 M x,
  reached solve pinv h ab -> base_fixed false h = true -> (forall a : K, keq a a = true) ->
  ask solve pinv (QoJbar J e1) ab = Ok (ab1, AMat M) -> ask solve pinv (QoLambda J e2) ab1 = Ok (ab2, x) ->
  outcome (ask solve pinv (QoJbar J e2) ab2) = Ok (AMat M).
Proof. exact @c37_stale. Qed.
Print Assumptions C37_stale.
(** The pseudo-inverse of a positive number: zero when within the threshold. *)
Definition pinv_1 (A : list (list (@K QcScal))) (e : @K QcScal) : list (list (@K QcScal)) * bool :=
  match A with [[x]] => if klt e x then ([[kdiv k1 x]], false) else ([[k0]], true) | _ => (A, false) end.
Definition mixed : list (@op QcScal) := two ++ [OAsk (QoJbar row1 (qz 0)); OAsk (QoLambda row1 (qz 9))].
Theorem C37_refuted : exists solve pinv h (ab : @body QcScal) mem J e,
  reached solve pinv h ab /\ base_fixed false h = true /\ proper ab /\
  outcome (ask solve pinv (QoJbar J e) ab) <> outcome (ask solve pinv (QoJbar J e) (cold ab mem)).
Proof.
  exists solve0, pinv_1, mixed, (robot_with pinv_1 mixed), (junk (qz 7)), row1, (qz 9).
  split; [apply robot_with_reached; vm_compute; reflexivity|]. split; [reflexivity|]. split; [apply properb_ok; vm_compute; reflexivity|].
  apply fracs_neq. vm_compute. discriminate.
Qed.
Print Assumptions C37_refuted.
Example C37_example : exists (ab : @body QcScal), reached solve0 pinv_1 mixed ab /\ base_fixed false mixed = true /\
  (forall a : @K QcScal, keq a a = true) /\ (exists r, ask solve0 pinv_1 (QoJbar row1 (qz 0)) ab = Ok r).
Proof.
  exists (robot_with pinv_1 mixed). split; [apply robot_with_reached; vm_compute; reflexivity|]. split; [reflexivity|]. split.
  - intros a. change (Qc_eq_bool a a = true). unfold Qc_eq_bool. destruct (Qc_eq_dec a a); congruence.
  - eexists. apply (ask_split_any _ (robot_after two)). vm_compute. reflexivity.
Qed.

(** C38.  Coriolis compensation in opspace::InverseDynamics: refused unless the task
    has six rows, and then evaluated at link trunc(svd_epsilon), threshold 0. *)
Theorem C38_coriolis : forall {S : Scal} {L : ScalLaws S} {ES : EqSound S} solve pinv h ab mem J ddx N fe b o N' tau0,
  reached solve pinv h ab -> (N = None \/ N = Some nil) -> p_cc o = true -> p_fric o = false ->
  outcome (ask solve pinv (QoID J ddx N fe b (no_cc o)) (cold ab mem)) = Ok (ANull N' tau0) ->
  let answer := outcome (ask solve pinv (QoID J ddx N fe b o) (cold ab mem)) in
  (List.length J <> 6 -> answer = Throw) /\
  (List.length J = 6 -> match outcome (ask solve pinv (QoCC J (ktrunc (p_svd o)) k0) (cold ab mem)) with
     | Ok (AVec cc) => answer = Ok (ANull N' (map (fun k => kadd (coef tau0 k) (total (map (fun i => kmul (entry J i k) (coef cc i)) (seq 0 6)))) (seq 0 (ab_dof ab))))
     | _ => answer = UB
     end).
Proof. exact @c38_cor. Qed.
Print Assumptions C38_coriolis.
(** So link 0 for every threshold below one. *)
Theorem C38_link0 : forall e : R, (-1 < e < 1)%R -> @ktrunc RScal e = 0%Z.
Proof. exact trunc_small. Qed.
Print Assumptions C38_link0.
(** A turning slide: the answer is not the compensation for the last link. *)
Definition slide : list (@op QcScal) :=
  [ OAdd (Rb "a" [] (-1) (-1) iso_id (inertia_flat (qz 1) (QV 0 0 0) (qz 1) (qz 1) (qz 1) (qz 0) (qz 0) (qz 0)) (joint_of JRz)) (-1);
    OAdd (Rb "b" [] (-1) (-1) iso_id (inertia_flat (qz 1) (QV 0 0 0) (qz 1) (qz 1) (qz 1) (qz 0) (qz 0) (qz 0)) (joint_of JPx)) 0;
    OSetQ [qz 0; qz 1]; OSetDq [qz 1; qz 1] ].
Definition slide_J : list (list (@K QcScal)) :=
  [[qz 0; qz 1]; [qz 1; qz 0]; [qz 0; qz 0]; [qz 0; qz 0]; [qz 0; qz 0]; [qz 1; qz 0]].
Definition slide_La : list (list (@K QcScal)) :=
  [[qz 1; qz 0; qz 0; qz 0; qz 0; qz 0]; [qz 0; qq 3 4; qz 0; qz 0; qz 0; qq 3 4]; [qz 0; qz 0; qz 0; qz 0; qz 0; qz 0];
   [qz 0; qz 0; qz 0; qz 0; qz 0; qz 0]; [qz 0; qz 0; qz 0; qz 0; qz 0; qz 0]; [qz 0; qq 3 4; qz 0; qz 0; qz 0; qq 3 4]].
Definition slide_pinv (A : list (list (@K QcScal))) (e : @K QcScal) : list (list (@K QcScal)) * bool := (slide_La, true).
Definition slide_o (cc : bool) : ops_opts := OpsOpts false cc false (qq 1 100) (qz 0) (qz 0).
Theorem C38_coriolis_refuted : exists solve pinv h (ab : @body QcScal) J ddx o Li tau tau0 cc,
  reached solve pinv h ab /\ base_fixed false h = true /\ proper ab /\ p_cc o = true /\ p_fric o = false /\
  outcome (ask solve pinv (QoLinv J) ab) = Ok (AMat Li) /\ (forall e, penrose 6 Li (fst (pinv Li e))) /\
  outcome (ask solve pinv (QoID J ddx None (fun _ => None) true o) ab) = Ok (ANull None tau) /\
  outcome (ask solve pinv (QoID J ddx None (fun _ => None) true (no_cc o)) ab) = Ok (ANull None tau0) /\
  outcome (ask solve pinv (QoCC J (-1) (p_svd o)) ab) = Ok (AVec cc) /\
  tau <> map (fun k => kadd (coef tau0 k) (total (map (fun i => kmul (entry J i k) (coef cc i)) (seq 0 6)))) (seq 0 (ab_dof ab)).
Proof.
  exists solve0, slide_pinv, slide, (robot_with slide_pinv slide), slide_J, (repeat (qz 1) 6), (slide_o true),
    (answer_mat (outcome (ask solve0 slide_pinv (QoLinv slide_J) (robot_with slide_pinv slide)))),
    (answer_null (outcome (ask solve0 slide_pinv (QoID slide_J (repeat (qz 1) 6) None (fun _ => None) true (slide_o true)) (robot_with slide_pinv slide)))),
    (answer_null (outcome (ask solve0 slide_pinv (QoID slide_J (repeat (qz 1) 6) None (fun _ => None) true (slide_o false)) (robot_with slide_pinv slide)))),
    (answer_vec (outcome (ask solve0 slide_pinv (QoCC slide_J (-1) (qq 1 100)) (robot_with slide_pinv slide)))).
  split; [apply robot_with_reached; vm_compute; reflexivity|]. split; [reflexivity|]. split; [apply properb_ok; vm_compute; reflexivity|].
  split; [reflexivity|]. split; [reflexivity|]. split; [apply answer_mat_ok; vm_compute; reflexivity|].
  split; [intros e; apply penroseb_ok; vm_compute; reflexivity|].
  split; [apply answer_null_ok; vm_compute; reflexivity|]. split; [apply answer_null_ok; vm_compute; reflexivity|]. split; [apply answer_vec_ok; vm_compute; reflexivity|].
  intros E. apply (f_equal (map frac)) in E. vm_compute in E. discriminate.
Qed.
Print Assumptions C38_coriolis_refuted.
(** Friction in task space: the stiction threshold only decides whether compensation
    is on; the band is always 1/100. *)
Theorem C38_friction : forall {S : Scal} {L : ScalLaws S} {ES : EqSound S} solve pinv h ab J m tau e st,
  reached solve pinv h ab -> base_fixed false h = true -> one_threshold e h -> sized m (ab_dof ab) J -> ab_dof ab <= List.length tau ->
  exists Jb F f,
    outcome (ask solve pinv (QoJbar J e) ab) = Ok (AMat Jb) /\
    Friction ab tau (negb (keq st k0)) (klit 1 100) = Ok F /\
    outcome (ask solve pinv (QoFric J tau e st) ab) = Ok (AVec f) /\
    List.length f = m /\ forall i, i < m -> coef f i = total (map (fun k => kmul (entry Jb k i) (coef F k)) (seq 0 (ab_dof ab))).
Proof. exact @c38_fric. Qed.
Print Assumptions C38_friction.
Lemma fracs1 (M : list (list (@K QcScal))) : map (map frac) M = [[(1, 1)%Z]] -> M = [[k1]].
Proof.
  destruct M as [|[|x [|? ?]] [|? ?]]; try discriminate. intros E. inversion E. do 2 f_equal. apply (frac_eq x 1 1). unfold frac. congruence.
Qed.
(** A joint moving at 1/10: within a band of 1/2, outside the default one. *)
Definition rub : list (@op QcScal) :=
  [ OAdd (Rb "a" [] (-1) (-1) iso_id (q_inertia 2) (Jnt JRz (subspace_of JRz) NInf PInf PInf PInf (qz 3) (qz 1) (qz 2))) (-1); OSetDq [qq 1 10] ].
Theorem C38_friction_refuted : exists solve pinv h (ab : @body QcScal) J tau e st f,
  reached solve pinv h ab /\ base_fixed false h = true /\ one_threshold e h /\ sized 1 (ab_dof ab) J /\ List.length tau = ab_dof ab /\
  outcome (ask solve pinv (QoJbar J e) ab) = Ok (AMat [[k1]]) /\
  outcome (ask solve pinv (QoFric J tau e st) ab) = Ok (AVec f) /\
  forall comp, Friction ab tau comp st <> Ok f.
Proof.
  exists solve0, pinv0, rub, (robot_after rub), [[qz 1]], [qz (-20)], (qz 0), (qq 1 2), (answer_vec (outcome (ask solve0 pinv0 (QoFric [[qz 1]] [qz (-20)] (qz 0) (qq 1 2)) (robot_after rub)))).
  split; [apply robot_after_reached; vm_compute; reflexivity|]. split; [reflexivity|]. split; [apply no_threshold; reflexivity|].
  split; [split; [reflexivity|repeat constructor]|]. split; [reflexivity|].
  split; [refine (eq_trans (answer_mat_ok _ _) _); [vm_compute; reflexivity|do 2 f_equal; apply fracs1; vm_compute; reflexivity]|].
  split; [apply answer_vec_ok; vm_compute; reflexivity|].
  intros [] E; apply (f_equal (fun r => match r with Ok l => map frac l | _ => [] end)) in E; vm_compute in E; discriminate.
Qed.
Print Assumptions C38_friction_refuted.
Example C38_example : reached solve0 slide_pinv slide (robot_with slide_pinv slide) /\ p_cc (slide_o true) = true /\ p_fric (slide_o true) = false /\
  List.length slide_J = 6 /\ (exists tau0, outcome (ask solve0 slide_pinv (QoID slide_J (repeat (qz 1) 6) None (fun _ => None) true (no_cc (slide_o true))) (cold (robot_with slide_pinv slide) (junk (qz 3)))) = Ok (ANull None tau0)) /\
  exists cc, outcome (ask solve0 slide_pinv (QoCC slide_J (ktrunc (p_svd (slide_o true))) k0) (cold (robot_with slide_pinv slide) (junk (qz 3)))) = Ok (AVec cc).
Proof.
  split; [apply robot_with_reached; vm_compute; reflexivity|]. do 3 (split; [reflexivity|]). split; eexists; [apply answer_null_ok|apply answer_vec_ok]; vm_compute; reflexivity.
Qed.

(** C39.  What a commanded acceleration adds to the torques is J' F, F the clipped
    force: within the bound, a positive multiple of Lambda ddx, equal to it when that
    is within the bound. *)
Theorem C39_clipping : forall (solve : list (list (@K RScal)) -> list (@K RScal) -> list (@K RScal)) (pinv : list (list (@K RScal)) -> @K RScal -> list (list (@K RScal)) * bool)
  h (ab : @body RScal) J m ddx N fe b o,
  @reached RScal solve pinv h ab -> base_fixed false h = true -> @one_threshold RScal (p_svd o) h ->
  @sized RScal m (ab_dof ab) J -> List.length ddx = m -> (N = None \/ N = Some nil) -> p_cc o = false -> p_fric o = false -> (0 < p_facc o)%R ->
  exists La tau tau0 N' N0 F,
    outcome (@ask RScal solve pinv (QoLambda J (p_svd o)) ab) = Ok (AMat La) /\
    outcome (@ask RScal solve pinv (QoID J ddx N fe b o) ab) = Ok (ANull N' tau) /\
    outcome (@ask RScal solve pinv (@QoID RScal J (repeat 0%R m) N fe b o) ab) = Ok (ANull N0 tau0) /\
    List.length F = m /\ (sqsum F <= p_facc o * p_facc o)%R /\
    (forall k, k < ab_dof ab -> @coef RScal tau k = (@coef RScal tau0 k + @total RScal (map (fun i => (@entry RScal J i k * @coef RScal F i)%R) (seq 0 m)))%R) /\
    (exists c, (0 < c <= 1)%R /\ forall i, i < m -> @coef RScal F i = (c * @row_times RScal m La ddx i)%R) /\
    ((sqsum (map (@row_times RScal m La ddx) (seq 0 m)) <= p_facc o * p_facc o)%R -> forall i, i < m -> @coef RScal F i = @row_times RScal m La ddx i) /\
    ((p_facc o * p_facc o < sqsum (map (@row_times RScal m La ddx) (seq 0 m)))%R -> sqsum F = (p_facc o * p_facc o)%R).
Proof. exact c39. Qed.
Print Assumptions C39_clipping.
Example C39_example : exists h (ab : @body RScal) J (ddx : list R) (o : @ops_opts RScal), @reached RScal (@solve0 RScal) (@pinv0 RScal) h ab /\ base_fixed false h = true /\ @one_threshold RScal (p_svd o) h /\
  @sized RScal 1 (ab_dof ab) J /\ List.length ddx = 1 /\ p_cc o = false /\ p_fric o = false /\ (0 < p_facc o)%R.
Proof.
  destruct (rubbing_robot 3 1 (-5)%R) as (ab & R0 & D & _). eexists _, ab, [[1%R]], [2%R], (@OpsOpts RScal true false false 0%R 0%R 3%R).
  split; [exact R0|]. split; [reflexivity|]. split; [apply no_threshold; reflexivity|]. rewrite D. split; [split; [reflexivity|repeat constructor]|].
  do 3 (split; [reflexivity|]). cbn. lra.
Qed.
