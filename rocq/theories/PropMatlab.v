(** C53, C54: the MATLAB functions *)
From Coq Require Import List Arith ZArith Bool String QArith Qcanon Lia.
From Verif Require Import Scalar Base Spatial SpecGeo Joint Body Kin InvDyn FwdDyn Opspace OpspaceAba Deriv Sim Ops Control Ik Discrete Matlab Instances Specs SpecCache SpecKin SpecDyn SpecOps SpecDiscrete SpecMatlab Samples Checks MatlabApi MatlabMore MatlabDefects DiscreteProofs DiscreteSamples PropCache PropDyn PropControl PropDiscrete.
Import ListNotations.
Local Open Scope nat_scope.

(** C53.  Functions of Q: block i of the output is the answer of a newly loaded robot
    placed in column i, whatever the robot was asked before; the robot stays in the
    last column. *)
Theorem C53_gravity : forall {S : Scal} {AC : AddComm S} {ES : EqSound S} solve pinv h ab, reached solve pinv h ab -> base_fixed false h = true ->
  forall Q w rest, columns (ab_dof ab) w Q ->
  let n := ab_dof ab in
  exists ab' out, mex_gravity (MNum Q :: rest) ab = Ok (ab', Some out) /\ blocks [n] n w Q out /\
  moved_to ab (last_column n w Q (ab_q ab)) (ab_dq ab) ab' /\
  forall i mem, i < w -> exists G, outcome (ask solve pinv QGrav (restart ab (column n Q i) (ab_dq ab) mem)) = Ok (AVec G) /\
    forall j, j < n -> block_entry n out i j = coef G j.
Proof. exact @m_gravity. Qed.
Print Assumptions C53_gravity.
Theorem C53_inertia : forall {S : Scal} {AC : AddComm S} {ES : EqSound S} solve pinv h ab, reached solve pinv h ab -> base_fixed false h = true ->
  forall Q w rest, columns (ab_dof ab) w Q ->
  let n := ab_dof ab in
  exists ab' out, mex_inertia (MNum Q :: rest) ab = Ok (ab', Some out) /\ blocks [n; n] (n * n) w Q out /\
  moved_to ab (last_column n w Q (ab_q ab)) (ab_dq ab) ab' /\
  forall i mem, i < w -> exists A, outcome (ask solve pinv QInertia (restart ab (column n Q i) (ab_dq ab) mem)) = Ok (AMat A) /\
    forall r c, r < n -> c < n -> block_entry (n * n) out i (r + n * c) = entry A r c.
Proof. exact @m_inertia. Qed.
Print Assumptions C53_inertia.
Theorem C53_hessian : forall {S : Scal} {AC : AddComm S} {ES : EqSound S} solve pinv h ab, reached solve pinv h ab -> base_fixed false h = true ->
  forall Q w rest, 0 < ab_dof ab -> columns (ab_dof ab) w Q ->
  let n := ab_dof ab in
  exists ab' out, mex_hessian (MNum Q :: rest) ab = Ok (ab', Some out) /\ blocks [n; n; 6] (n * n * 6) w Q out /\
  moved_to ab (last_column n w Q (ab_q ab)) (ab_dq ab) ab' /\
  forall i mem, i < w -> exists H, outcome (ask solve pinv (QHess (-1) v3zero) (restart ab (column n Q i) (ab_dq ab) mem)) = Ok (AHess H) /\
    forall r c k, r < n -> c < n -> k < 6 -> block_entry (n * n * 6) out i (r + n * c + n * n * k) = six_of (nth c (nth r H nil) mzero) k.
Proof. exact @m_hessian. Qed.
Print Assumptions C53_hessian.
(** Of Q and dQ. *)
Theorem C53_coriolis : forall {S : Scal} {AC : AddComm S} {ES : EqSound S} solve pinv h ab, reached solve pinv h ab -> base_fixed false h = true ->
  forall Q dQ w v rest, columns (ab_dof ab) w Q -> columns (ab_dof ab) v dQ -> w <= v ->
  let n := ab_dof ab in
  exists ab' out, mex_coriolis (MNum Q :: MNum dQ :: rest) ab = Ok (ab', Some out) /\ blocks [n] n w Q out /\
  moved_to ab (last_column n w Q (ab_q ab)) (last_column n w dQ (ab_dq ab)) ab' /\
  forall i mem, i < w -> exists C, outcome (ask solve pinv QCC (restart ab (column n Q i) (column n dQ i) mem)) = Ok (AVec C) /\
    forall j, j < n -> block_entry n out i j = coef C j.
Proof. exact @m_coriolis. Qed.
Print Assumptions C53_coriolis.
(** Of Q, dQ and ddQ, with gravity and centrifugal and Coriolis forces. *)
Theorem C53_inverse_dynamics : forall {S : Scal} {L : ScalLaws S} {PL : PosLaws S} {ES : EqSound S} solve pinv h ab, reached solve pinv h ab -> base_fixed false h = true ->
  forall Q dQ ddQ w rest, proper ab -> matrix (ab_dof ab) w Q -> matrix (ab_dof ab) w dQ -> matrix (ab_dof ab) w ddQ ->
  let n := ab_dof ab in
  exists ab' out, mex_inverse_dynamics (MNum Q :: MNum dQ :: MNum ddQ :: rest) ab = Ok (ab', Some out) /\ blocks [n] n w Q out /\
  moved_to ab (last_column n w Q (ab_q ab)) (last_column n w dQ (ab_dq ab)) ab' /\
  forall i mem, i < w -> exists tau,
    outcome (ask solve pinv (QID (column n ddQ i) no_force (IdOpts true true false (klit 1 100))) (restart ab (column n Q i) (column n dQ i) mem)) = Ok (AVec tau) /\
    forall j, j < n -> block_entry n out i j = coef tau j.
Proof. exact @m_inverse_dynamics. Qed.
Print Assumptions C53_inverse_dynamics.
Theorem C53_velocity_derivative : forall {S : Scal} {L : ScalLaws S} {ES : EqSound S} solve pinv h ab, reached solve pinv h ab -> base_fixed false h = true ->
  forall Q dQ ddQ w rest, matrix (ab_dof ab) w Q -> matrix (ab_dof ab) w dQ -> matrix (ab_dof ab) w ddQ ->
  let n := ab_dof ab in
  exists ab' out, mex_velocity_derivative (MNum Q :: MNum dQ :: MNum ddQ :: rest) ab = Ok (ab', Some out) /\ blocks [n; n] (n * n) w Q out /\
  moved_to ab (last_column n w Q (ab_q ab)) (last_column n w dQ (ab_dq ab)) ab' /\
  forall i mem, i < w -> exists D,
    outcome (ask solve pinv (QVelD (column n ddQ i) no_force (IdOpts true true false (klit 1 100))) (restart ab (column n Q i) (column n dQ i) mem)) = Ok (AMat D) /\
    forall r c, r < n -> c < n -> block_entry (n * n) out i (r + n * c) = entry D r c.
Proof. exact @m_velocity_derivative. Qed.
Print Assumptions C53_velocity_derivative.
(** Of Q with 'link' and 'offset'; these leave the robot where it is. *)
Theorem C53_position : forall {S : Scal} {L : ScalLaws S} solve pinv h ab, reached solve pinv h ab -> base_fixed false h = true ->
  forall Q w l k, columns (ab_dof ab) w Q -> Forall named_ok l -> idx (ab_dof ab) (link_of l) = Some k ->
  let n := ab_dof ab in
  exists out, mex_position (MNum Q :: args_of l) ab = Ok (ab, Some out) /\ blocks [3] 3 w Q out /\
  forall i mem, i < w -> exists x, outcome (ask solve pinv (QPos (link_of l) (offset_in l)) (restart ab (column n Q i) (ab_dq ab) mem)) = Ok (AV3 x) /\
    forall j, j < 3 -> block_entry 3 out i j = three_of x j.
Proof. exact @m_position. Qed.
Print Assumptions C53_position.
Theorem C53_jacobian : forall {S : Scal} {L : ScalLaws S} solve pinv h ab, reached solve pinv h ab -> base_fixed false h = true ->
  forall Q w l k, columns (ab_dof ab) w Q -> Forall named_ok l -> idx (ab_dof ab) (link_of l) = Some k ->
  let n := ab_dof ab in
  exists out, mex_jacobian (MNum Q :: args_of l) ab = Ok (ab, Some out) /\ blocks [6; n] (6 * n) w Q out /\
  forall i mem, i < w -> exists J, outcome (ask solve pinv (QJac (link_of l) (offset_in l)) (restart ab (column n Q i) (ab_dq ab) mem)) = Ok (AMots J) /\
    forall r c, r < 6 -> c < n -> block_entry (6 * n) out i (r + 6 * c) = six_of (nth c J mzero) r.
Proof. exact @m_jacobian. Qed.
Print Assumptions C53_jacobian.
(** The dynamically consistent inverse of the last link's Jacobian, provided earlier
    operational-space queries used the same (zero) threshold. *)
Theorem C53_jacobian_dynamic_inverse : forall {S : Scal} {L : ScalLaws S} {ES : EqSound S} solve pinv h ab, reached solve pinv h ab -> base_fixed false h = true ->
  one_threshold k0 h ->
  forall Q w l, 0 < ab_dof ab -> columns (ab_dof ab) w Q -> Forall named_ok l ->
  let n := ab_dof ab in
  exists ab' out, mex_jbar solve pinv (MNum Q :: args_of l) ab = Ok (ab', Some out) /\ blocks [n; 6] (n * 6) w Q out /\
  moved_to ab (last_column n w Q (ab_q ab)) (ab_dq ab) ab' /\
  forall i mem, i < w -> exists J Jb, outcome (ask solve pinv (QJac (-1) v3zero) (restart ab (column n Q i) (ab_dq ab) mem)) = Ok (AMots J) /\
    outcome (ask solve pinv (QoJbar (as_matrix J) k0) (restart ab (column n Q i) (ab_dq ab) mem)) = Ok (AMat Jb) /\
    forall r c, r < n -> c < 6 -> block_entry (n * 6) out i (r + n * c) = entry Jb r c.
Proof. exact @m_jbar. Qed.
Print Assumptions C53_jacobian_dynamic_inverse.
(** Discrete inverse dynamics along a trajectory: column i takes the robot from column
    i through column i + 1 to column i + 2. *)
Theorem C53_discrete : forall {S : Scal} {AC : AddComm S} {ES : EqSound S} solve pinv log6 dlog6 norm h ab Q D dt d w rest,
  dreached solve pinv log6 dlog6 norm h ab -> dbase_fixed false h = true -> no_integration h = true ->
  dts_ok h -> told_apart dt -> matrix (ab_dof ab) w Q -> 2 <= w -> m_data D = dt :: d ->
  let n := ab_dof ab in
  exists ab' out, mex_discrete log6 dlog6 (MNum Q :: MNum D :: rest) ab = Ok (ab', Some out) /\ matrix n (w - 2) out /\
  moved_to ab (match w - 2 with 0 => ab_q ab | Datatypes.S i => column n Q (i + 1) end)
              (match w - 2 with 0 => ab_dq ab | Datatypes.S i => mean_velocity n Q dt i end) ab' /\
  forall i mem, i < w - 2 -> exists v,
    outcome (q_DiscreteID log6 dlog6 (column n Q (i + 2)) dt no_force true (restart ab (column n Q (i + 1)) (mean_velocity n Q dt i) mem)) = Ok v /\
    List.length v = n /\ column n out i = v.
Proof. exact @m_discrete. Qed.
Print Assumptions C53_discrete.
(** Without Q: the answers for the stored state, as an array. *)
Theorem C53_stored : forall {S : Scal} {L : ScalLaws S} solve pinv h ab, reached solve pinv h ab -> base_fixed false h = true -> 0 < ab_dof ab ->
  let n := ab_dof ab in
  (exists ab' G out, ask solve pinv QGrav ab = Ok (ab', AVec G) /\ mex_gravity nil ab = Ok (ab', Some out) /\ m_dim out = [n] /\ m_data out = G) /\
  (exists ab' A out, ask solve pinv QInertia ab = Ok (ab', AMat A) /\ mex_inertia nil ab = Ok (ab', Some out) /\ matrix n n out /\
     forall r c, r < n -> c < n -> coef (m_data out) (r + n * c) = entry A r c) /\
  (exists ab' H out, ask solve pinv (QHess (-1) v3zero) ab = Ok (ab', AHess H) /\ mex_hessian nil ab = Ok (ab', Some out) /\ m_dim out = [n; n; 6] /\ whole out /\
     forall r c k, r < n -> c < n -> k < 6 -> coef (m_data out) (r + n * c + n * n * k) = six_of (nth c (nth r H nil) mzero) k) /\
  (exists ab' x out, ask solve pinv (QPos (-1) v3zero) ab = Ok (ab', AV3 x) /\ mex_position nil ab = Ok (ab', Some out) /\ m_dim out = [3] /\ whole out /\
     forall j, j < 3 -> coef (m_data out) j = three_of x j) /\
  (exists ab' J out, ask solve pinv (QJac (-1) v3zero) ab = Ok (ab', AMots J) /\ mex_jacobian nil ab = Ok (ab', Some out) /\ matrix 6 n out /\
     forall r c, r < 6 -> c < n -> coef (m_data out) (r + 6 * c) = six_of (nth c J mzero) r).
Proof. exact @m_stored. Qed.
Print Assumptions C53_stored.
(** A Q with another number of rows: no output, the robot unchanged. *)
Theorem C53_rows : forall {S : Scal} solve pinv ab rest Q, whole Q -> hd_error (m_dim Q) <> Some (ab_dof ab) ->
  mex_gravity (MNum Q :: rest) ab = Ok (ab, None) /\ mex_inertia (MNum Q :: rest) ab = Ok (ab, None) /\ mex_hessian (MNum Q :: rest) ab = Ok (ab, None) /\
  mex_coriolis (MNum Q :: rest) ab = Ok (ab, None) /\ mex_position (MNum Q :: rest) ab = Ok (ab, None) /\ mex_jacobian (MNum Q :: rest) ab = Ok (ab, None) /\
  mex_jbar solve pinv (MNum Q :: rest) ab = Ok (ab, None).
Proof. exact @m_position_none. Qed.
Print Assumptions C53_rows.

(** The robot of C03, at two configurations. *)
Definition Q52 : @marr QcScal := MA [5; 2] (map qz [1; 2; 0; 1; 3;  0; 1; 2; 2; 1]%Z).
Definition dQ52 : @marr QcScal := MA [5; 2] (map qz [0; 1; 0; 1; 1;  1; 1; 0; 2; 0]%Z).
Definition ddQ52 : @marr QcScal := MA [5; 2] (map qz [1; 0; 0; 0; 2;  0; 3; 0; 1; 0]%Z).
Definition numbers (r : @mex QcScal) : list (Z * Z) := match r with Ok (_, Some out) => map frac (m_data out) | _ => [] end.
Definition lo : list (@named_arg QcScal) := [NLink (MA [1; 1] [qz 2]); NOffset (MA [3; 1] (map qz [1; 0; 2]%Z)); NOther "frame" (MStr "base")].
Example C53_example : reached solve0 pinv0 busy (robot_after busy) /\ base_fixed false busy = true /\ one_threshold k0 busy /\ proper (robot_after busy) /\
  ab_dof (robot_after busy) = 5 /\ matrix 5 2 Q52 /\ columns 5 2 Q52 /\ matrix 5 2 dQ52 /\ matrix 5 2 ddQ52 /\
  Forall named_ok lo /\ idx 5 (link_of lo) = Some 2.
Proof.
  split; [exact busy_reached|]. split; [reflexivity|]. split; [|split; [exact busy_proper|]].
  - apply no_thresholds. reflexivity.
  - split; [vm_compute; reflexivity|]. split; [split; reflexivity|]. split; [split; [reflexivity|]; exists [2]; split; reflexivity|].
    split; [split; reflexivity|]. split; [split; reflexivity|]. split; [|vm_compute; reflexivity].
    repeat constructor; discriminate.
Qed.
Example C53_values :
  numbers (mex_gravity [MNum Q52] (robot_after busy)) =
    [(2, 1); (5, 1); (21, 1); (4, 1); (-2, 1); (722, 25); (0, 1); (144, 25); (-96, 25); (0, 1)]%Z /\
  numbers (mex_inverse_dynamics [MNum Q52; MNum dQ52; MNum ddQ52] (robot_after busy)) =
    [(198, 1); (0, 1); (17, 1); (5, 1); (6, 1); (23063, 625); (-3, 1); (6783, 625); (3328, 625); (0, 1)]%Z /\
  numbers (mex_position (MNum Q52 :: args_of lo) (robot_after busy)) = [(0, 1); (-1, 1); (8, 1); (-2, 1); (3, 1); (4, 1)]%Z.
Proof. repeat split; vm_compute; reflexivity. Qed.
(** The robot of C47, along three columns. *)
Definition Q43 : @marr QcScal := MA [4; 3] (map qz [1; 2; 0; 1;  0; 1; 2; 2;  1; 1; 2; 1]%Z).
Example C53_discrete_example : matrix 4 3 Q43 /\ ab_dof (drobot solve_i log_r dlog_r dbusy 7) = 4 /\
  numbers (mex_discrete log_r dlog_r [MNum Q43; MNum (MA [1; 1] [qq 1 2])] (drobot solve_i log_r dlog_r dbusy 7)) =
    [(29942, 25); (-24, 1); (-96853, 2500); (-68122, 625)]%Z.
Proof. split; [split; reflexivity|]. split; vm_compute; reflexivity. Qed.

(** C54.  inverse_kinematics never works as documented: with a 3 x 1 position it reads
    past its end; without a guess it reads an input that is not there. *)
Theorem C54_ik_undefined : forall {S : Scal} solve pinv goal sz x quat rest ab, matrix 3 1 x -> hd_error (m_dim quat) = Some 4 ->
  mex_inverse_kinematics solve pinv goal sz (MNum x :: MNum quat :: rest) ab = UB.
Proof. exact @ik_undefined. Qed.
Print Assumptions C54_ik_undefined.
Theorem C54_ik_guess : forall {S : Scal} solve pinv goal sz x quat ab, hd_error (m_dim x) = Some 3 -> hd_error (m_dim quat) = Some 4 ->
  mex_inverse_kinematics solve pinv goal sz [MNum x; MNum quat] ab = UB.
Proof. exact @ik_three. Qed.
Print Assumptions C54_ik_guess.
(** The orientation asked for plays no part. *)
Theorem C54_ik_orientation : forall {S : Scal} solve pinv goal sz x quat quat' rest ab,
  hd_error (m_dim quat) = Some 4 -> hd_error (m_dim quat') = Some 4 ->
  mex_inverse_kinematics solve pinv goal sz (x :: MNum quat :: rest) ab = mex_inverse_kinematics solve pinv goal sz (x :: MNum quat' :: rest) ab.
Proof. exact @ik_quat. Qed.
Print Assumptions C54_ik_orientation.
Example C54_ik_example : @matrix QcScal 3 1 (MA [3; 1] (map qz [1; 2; 3]%Z)) /\ hd_error (m_dim (@MA QcScal [4; 1] (map qz [1; 0; 0; 0]%Z))) = Some 4.
Proof. repeat split. Qed.
(** centrifugal_coriolis does not answer for the stored state, and reads past the end
    of a dQ with fewer columns than Q. *)
Theorem C54_coriolis_stored : forall {S : Scal} args (ab : body), List.length args <= 1 -> mex_coriolis args ab = Ok (ab, None).
Proof. exact @coriolis_nothing. Qed.
Print Assumptions C54_coriolis_stored.
Theorem C54_coriolis_columns : forall {S : Scal} solve pinv {AC : AddComm S} {ES : EqSound S} h ab, reached solve pinv h ab ->
  forall Q dQ w v rest, base_fixed false h = true -> 0 < ab_dof ab -> columns (ab_dof ab) w Q -> columns (ab_dof ab) v dQ -> v < w ->
  mex_coriolis (MNum Q :: MNum dQ :: rest) ab = UB.
Proof. exact @coriolis_short. Qed.
Print Assumptions C54_coriolis_columns.
Example C54_coriolis_example : @columns QcScal 5 1 (MA [5; 1] (map qz [0; 1; 0; 1; 1]%Z)) /\ columns 5 2 Q52.
Proof. split; (split; [reflexivity|]); eexists; split; reflexivity. Qed.
(** jacobian_dynamic_inverse ignores 'link' and 'offset', and for the stored state is
    undefined but for six joints. *)
Theorem C54_jbar_link : forall {S : Scal} solve pinv ab Q l l', Forall named_ok l -> Forall named_ok l' ->
  mex_jbar solve pinv (MNum Q :: args_of l) ab = mex_jbar solve pinv (MNum Q :: args_of l') ab.
Proof. exact @jbar_link. Qed.
Print Assumptions C54_jbar_link.
Theorem C54_jbar_stored : forall {S : Scal} solve pinv ab, ab_dof ab <> 6 -> mex_jbar solve pinv nil ab = UB.
Proof. exact @jbar_none. Qed.
Print Assumptions C54_jbar_stored.
(** inverse_dynamics_position_derivative is undefined as soon as a link has a parent. *)
Theorem C54_position_derivative : forall {S : Scal} solve pinv {AC : AddComm S} {ES : EqSound S} h ab, reached solve pinv h ab ->
  forall Q dQ ddQ w rest i p, base_fixed false h = true -> i < ab_dof ab -> par ab i = Some p ->
  matrix (ab_dof ab) w Q -> matrix (ab_dof ab) w dQ -> matrix (ab_dof ab) w ddQ -> 0 < w ->
  mex_position_derivative (MNum Q :: MNum dQ :: MNum ddQ :: rest) ab = UB.
Proof. exact @position_derivative_undefined. Qed.
Print Assumptions C54_position_derivative.
Example C54_robot : ab_dof (robot_after busy) = 5 /\ exists p, par (robot_after busy) 1 = Some p.
Proof. split; [vm_compute; reflexivity|]. vm_compute. eexists; reflexivity. Qed.
