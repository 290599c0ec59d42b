(** The position task and the task frame (C66). *)
From Coq Require Import List Arith ZArith Bool Lia Ring Field.
From Verif Require Import Scalar Base Spatial SpecGeo Joint Body Kin InvDyn FwdDyn Opspace OpspaceAba Deriv Sim Ops Control Specs SpecCache SpecKin SpecDyn SpecOps SpecControl SpecFrame SpatialTac SpatialProofs BigSum DynProofs DynApi ControlProofs.
Import ListNotations.

Section FrameProofs.
Context {S : Scal} {L : ScalLaws S} {PL : PosLaws S} {ES : EqSound S}.
Add Field kfp : (@kfield S L).
Local Open Scope k_scope.
Variable solve : list (list K) -> list K -> list K.
Variable pinv : list (list K) -> K -> list (list K) * bool.
Definition turn (R : option m3) (v : v3) : v3 := match R with None => v | Some R => m3mulv R v end.
Lemma turned_mlin R m : mlin (turned R m) = turn R (mlin m).
Proof. destruct R; reflexivity. Qed.
Lemma along_ksum p n cols x : along p n cols x = ksum n (fun j => p (mlin (nth j cols mzero)) * coef x j).
Proof. apply total_ksum. Qed.
Lemma nth_map_zero (f : motion -> K) cols j : f mzero = 0 -> nth j (map f cols) 0 = f (nth j cols mzero).
Proof. intros E. rewrite <- E at 1. apply map_nth. Qed.
Lemma dot_sum r n cols x : ksum n (fun j => v3dot r (mlin (nth j cols mzero)) * coef x j) = v3dot r (carried n cols x).
Proof.
  unfold carried. unfold v3dot at 2. cbn [vx vy vz]. rewrite !along_ksum, <- !ksum_scale, <- !ksum_add. apply ksum_ext. intros j Hj. unfold v3dot. ring.
Qed.
Lemma turn_sum R n cols x :
  V3 (ksum n (fun j => vx (mlin (turned R (nth j cols mzero))) * coef x j))
     (ksum n (fun j => vy (mlin (turned R (nth j cols mzero))) * coef x j))
     (ksum n (fun j => vz (mlin (turned R (nth j cols mzero))) * coef x j)) = turn R (carried n cols x).
Proof.
  destruct R as [R|]; cbn [turn turned mlin].
  - unfold m3mulv. cbn [vx vy vz]. rewrite !dot_sum. reflexivity.
  - unfold carried. rewrite !along_ksum. reflexivity.
Qed.
Lemma turn_zero R : mlin (turned R mzero) = v3zero.
Proof. rewrite turned_mlin. destruct R; [|reflexivity]. cbn [turn]. vring. Qed.
Lemma rows_vector R n cols x (l : list K) : (forall i, (i < 3)%nat -> row_times n (task_rows R cols) x i = coef l i) -> turn R (carried n cols x) = vector l.
Proof.
  intros H. pose proof (turn_zero R) as Z. rewrite <- turn_sum. unfold vector. rewrite <- (H 0%nat), <- (H 1%nat), <- (H 2%nat) by lia. unfold row_times. rewrite !total_ksum.
  unfold task_rows, entry. cbn [map nth]. f_equal; apply ksum_ext; intros j Hj.
  - rewrite (nth_map_zero (fun m => vx (mlin (turned R m)))) by (rewrite Z; reflexivity). reflexivity.
  - rewrite (nth_map_zero (fun m => vy (mlin (turned R m)))) by (rewrite Z; reflexivity). reflexivity.
  - rewrite (nth_map_zero (fun m => vz (mlin (turned R m)))) by (rewrite Z; reflexivity). reflexivity.
Qed.
Lemma rates_vector R n cols x : vector (map (rate n x) (firstn 3 (task_rows R cols))) = turn R (carried n cols x).
Proof.
  symmetry. apply rows_vector. intros i Hi. unfold row_times. rewrite total_ksum. destruct i as [|[|[|i]]]; try lia; unfold task_rows; cbn [map firstn nth coef]; rewrite rate_ksum; reflexivity.
Qed.
Lemma task_rows_length R cols : List.length (task_rows R cols) = 6%nat.
Proof. reflexivity. Qed.
Lemma c66 h ab k ab' tau st r A Li goal kp kv :
  reached solve pinv h ab -> base_fixed false h = true -> one_threshold k0 h -> proper ab ->
  outcome (ask solve pinv QInertia ab) = Ok (AMat A) -> solver_ok solve (ab_dof ab) A ->
  compute_opspace_control solve pinv k ab = Ok (ab', (tau, st)) -> reads solve pinv k ab r ->
  outcome (ask solve pinv (QoLinv (goal_rows r)) ab) = Ok (AMat Li) -> inverse_of (List.length (goal_rows r)) Li (fst (pinv Li k0)) ->
  drives_to goal kp kv (c_pos k) ->
  forall e, exists ddq cols, outcome (ask solve pinv (QFD tau (fun _ => None) (IdOpts (c_gravity k) false false e)) ab) = Ok (AVec ddq) /\
    outcome (ask solve pinv (QJac (-1) (c_off k)) ab) = Ok (AMots cols) /\
    turn (c_rot k) (carried (ab_dof ab) cols ddq) = spring kp kv (v3sub goal (r_x r)) (turn (c_rot k) (carried (ab_dof ab) cols (ab_dq ab))).
Proof.
  intros Rh B OT P HA SO HC RD HL HI HD e. destruct (c44_task solve pinv h ab k ab' tau st r A Li Rh B OT P HA SO HC RD HL HI e) as (ddq & E1 & _ & E2 & E3).
  destruct (reads_J _ _ _ _ _ RD) as (cols & E4 & E5). exists ddq, cols. split; [auto|]. split; [auto|].
  destruct (HD (r_x r) (r_dx r)) as [HL3 HV].
  rewrite <- (rates_vector (c_rot k) (ab_dof ab) cols (ab_dq ab)), <- E5, <- (reads_dx _ _ _ _ _ RD), <- HV. apply rows_vector. intros i Hi.
  assert (G : coef (goal_acc k r) i = coef (fst (c_pos k (r_x r) (r_dx r))) i).
  { unfold goal_acc. cbv zeta. destruct (r_s6 r); [reflexivity|]. unfold coef. apply app_nth1. lia. }
  rewrite <- G, <- E3.
  - unfold goal_rows. rewrite E5. destruct (r_s6 r); [|reflexivity]. unfold row_times, entry. destruct i as [|[|[|i]]]; try lia; reflexivity.
  - unfold goal_rows. rewrite E5. destruct (r_s6 r); cbn [task_rows map firstn List.length]; lia.
Qed.
Lemma c66_plain h ab k ab' tau st r A Li goal kp kv :
  reached solve pinv h ab -> base_fixed false h = true -> one_threshold k0 h -> proper ab ->
  outcome (ask solve pinv QInertia ab) = Ok (AMat A) -> solver_ok solve (ab_dof ab) A ->
  compute_opspace_control solve pinv k ab = Ok (ab', (tau, st)) -> reads solve pinv k ab r ->
  outcome (ask solve pinv (QoLinv (goal_rows r)) ab) = Ok (AMat Li) -> inverse_of (List.length (goal_rows r)) Li (fst (pinv Li k0)) ->
  drives_to goal kp kv (c_pos k) -> c_rot k = None ->
  forall e, exists ddq cols, outcome (ask solve pinv (QFD tau (fun _ => None) (IdOpts (c_gravity k) false false e)) ab) = Ok (AVec ddq) /\
    outcome (ask solve pinv (QJac (-1) (c_off k)) ab) = Ok (AMots cols) /\
    carried (ab_dof ab) cols ddq = spring kp kv (v3sub goal (r_x r)) (carried (ab_dof ab) cols (ab_dq ab)).
Proof.
  intros Rh B OT P HA SO HC RD HL HI HD ER e. destruct (c66 _ _ _ _ _ _ _ _ _ _ _ _ Rh B OT P HA SO HC RD HL HI HD e) as (ddq & cols & E1 & E2 & E3).
  rewrite ER in E3. exists ddq, cols. auto.
Qed.
Lemma orth_back R v w : is_rot R -> m3mulv R v = w -> v = m3mulv (m3tr R) w.
Proof. intros H <-. rewrite <- m3mulv_mul. rewrite (rot_tr_l R H). symmetry. apply m3mulv_id. Qed.
Lemma c66_frame h ab k ab' tau st r A Li goal p d R :
  reached solve pinv h ab -> base_fixed false h = true -> one_threshold k0 h -> proper ab ->
  outcome (ask solve pinv QInertia ab) = Ok (AMat A) -> solver_ok solve (ab_dof ab) A ->
  compute_opspace_control solve pinv k ab = Ok (ab', (tau, st)) -> reads solve pinv k ab r ->
  outcome (ask solve pinv (QoLinv (goal_rows r)) ab) = Ok (AMat Li) -> inverse_of (List.length (goal_rows r)) Li (fst (pinv Li k0)) ->
  drives_to goal (on_axes p) (on_axes d) (c_pos k) -> c_rot k = Some R -> is_rot R ->
  forall e, exists ddq cols, outcome (ask solve pinv (QFD tau (fun _ => None) (IdOpts (c_gravity k) false false e)) ab) = Ok (AVec ddq) /\
    outcome (ask solve pinv (QJac (-1) (c_off k)) ab) = Ok (AMots cols) /\
    carried (ab_dof ab) cols ddq = v3sub (v3scale p (m3mulv (m3tr R) (v3sub goal (r_x r)))) (v3scale d (carried (ab_dof ab) cols (ab_dq ab))).
Proof.
  intros Rh B OT P HA SO HC RD HL HI HD ER RR e. destruct (c66 _ _ _ _ _ _ _ _ _ _ _ _ Rh B OT P HA SO HC RD HL HI HD e) as (ddq & cols & E1 & E2 & E3).
  exists ddq, cols. split; [auto|]. split; [auto|]. rewrite ER in E3. cbn [turn] in E3. apply (orth_back R _ _ RR) in E3. rewrite E3.
  rewrite (orth_back R (carried (ab_dof ab) cols (ab_dq ab)) _ RR eq_refl) at 2.
  generalize (m3mulv R (carried (ab_dof ab) cols (ab_dq ab))). generalize (v3sub goal (r_x r)). intros x y. unfold spring, on_axes. vring.
Qed.
Lemma c66_away h ab k ab' tau st r A Li goal p d R :
  reached solve pinv h ab -> base_fixed false h = true -> one_threshold k0 h -> proper ab ->
  outcome (ask solve pinv QInertia ab) = Ok (AMat A) -> solver_ok solve (ab_dof ab) A ->
  compute_opspace_control solve pinv k ab = Ok (ab', (tau, st)) -> reads solve pinv k ab r ->
  outcome (ask solve pinv (QoLinv (goal_rows r)) ab) = Ok (AMat Li) -> inverse_of (List.length (goal_rows r)) Li (fst (pinv Li k0)) ->
  drives_to goal (on_axes p) (on_axes d) (c_pos k) -> c_rot k = Some R -> is_rot R -> m3mulv R (v3sub goal (r_x r)) = v3sub (r_x r) goal ->
  forall e, exists ddq cols, outcome (ask solve pinv (QFD tau (fun _ => None) (IdOpts (c_gravity k) false false e)) ab) = Ok (AVec ddq) /\
    outcome (ask solve pinv (QJac (-1) (c_off k)) ab) = Ok (AMots cols) /\
    carried (ab_dof ab) cols ddq = v3sub (v3scale p (v3sub (r_x r) goal)) (v3scale d (carried (ab_dof ab) cols (ab_dq ab))).
Proof.
  intros Rh B OT P HA SO HC RD HL HI HD ER RR HT e. destruct (c66_frame _ _ _ _ _ _ _ _ _ _ _ _ _ Rh B OT P HA SO HC RD HL HI HD ER RR e) as (ddq & cols & E1 & E2 & E3).
  exists ddq, cols. split; [auto|]. split; [auto|]. rewrite E3. do 2 f_equal.
  assert (N : m3mulv R (v3sub (r_x r) goal) = v3sub goal (r_x r)).
  { transitivity (v3opp (m3mulv R (v3sub goal (r_x r)))); [vring|]. rewrite HT. vring. }
  symmetry. apply orth_back; auto.
Qed.
Definition turn_z : m3 := M3 (V3 (- (1)) 0 0) (V3 0 (- (1)) 0) (V3 0 0 1).
Lemma turn_rot : is_rot turn_z.
Proof. unfold is_rot, turn_z, m3det. split; vunf; cbn; [ext|]; cbn; ring. Qed.
Lemma turn_back a b : m3mulv turn_z (V3 a b 0) = v3opp (V3 a b 0).
Proof. unfold turn_z. vunf; cbn; ext; cbn; ring. Qed.
Lemma ahead (x w : v3) : v3sub (v3add x w) x = w.
Proof. vring. Qed.
Lemma behind (x w : v3) : v3sub x (v3add x w) = v3opp w.
Proof. vring. Qed.
End FrameProofs.
