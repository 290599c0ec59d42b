(** The simulator application apps/opspace/src/main.cc. *)
From Coq Require Import List Arith ZArith Bool String Ascii.
From Verif Require Import Scalar Base Spatial Joint Body Kin InvDyn FwdDyn Opspace OpspaceAba Deriv Sim Ops Control Discrete Json.
Import ListNotations.

Section App.
Context {S : Scal}.
Local Open Scope k_scope.
Variable solve : lmat -> list K -> list K.
Variable pinv : lmat -> K -> lmat * bool.
Variable log6 : iso -> motion.
Variable dlog6 : iso -> i6.
Variable norm : list K -> K.
(** ctrl_utils::PdControl for positions, for quaternions (after NearQuaternion) and for
    joints (external): the measured value, the goal, the velocity, the gains.
    Simplified: orientations are given by their matrices (main.cc:128-133 and 150). *)
Variable pd_pos : v3 -> v3 -> list K -> K * K -> list K.
Variable pd_ori : m3 -> m3 -> list K -> K * K -> list K.
Variable pd_joint : list K -> list K -> list K -> K * K -> list K.

(** apps/opspace/src/main.cc:64 *)
Definition ee_offset : v3 := V3 0 0 (klit 3 100).
(** apps/opspace/src/main.cc:70-71 *)
Definition gain_key_press : K := klit 1 10 / klit 1000 1.
(** apps/opspace/src/main.cc:72 *)
Definition gain_click_drag : K := klit 100 1.
(** apps/opspace/src/main.cc:37-38 *)
Definition key_models_prefix : string := "spatial_dyn::model::".

(** The conversion of a size_t to an int (two's complement; main.cc:230). *)
Definition to_int (z : Z) : Z := ((z + 2 ^ 31) mod 2 ^ 32 - 2 ^ 31)%Z.
(** [get<size_t>()] (main.cc:225).  Simplified: integers and booleans only. *)
Definition get_size (v : val) : res Z :=
  match v with VInt z => Ok (z mod 2 ^ 64)%Z | VBool b => Ok (if b then 1 else 0)%Z | VNum _ => UB | _ => Throw end.
(** [operator\[\]] of a const json: a key that is not there is undefined behaviour, a value
    that is no object throws (main.cc:221 and 225-227). *)
Definition const_at (v : val) (k : string) : res val :=
  match v with
  | VObj l => match assoc k l with Some x => Ok x | None => UB end
  | _ => Throw
  end.
(** [operator\[\]] of a json that is not const, then [get<std::string>()]: a key that is
    not there is added with the value null, which is no string (main.cc:159). *)
Definition string_at (v : val) (k : string) : res string :=
  match v with
  | VObj l => match assoc k l with Some x => get_str x | None => Throw end
  | _ => Throw
  end.

(** apps/opspace/src/main.cc:233-237; spatial_force_base.h:283-290, Translation overload. *)
Definition click_force (mouse p : v3) : force :=
  let f := v3scale gain_click_drag (v3sub mouse p) in
  fact_tra p (Frc f v3zero).
(** apps/opspace/src/main.cc:216-240 *)
Definition compute_external_forces (i : val) (ab : body) : res (body * fmap) :=
  bind (const_at i "key_object") (fun o =>
  bind (get_str o) (fun key =>
  if negb (String.eqb key (key_models_prefix ++ ab_name ab)) then Ok (ab, no_force)
  else
    bind (const_at i "idx_link") (fun l =>
    bind (get_size l) (fun link =>
    bind (const_at i "pos_mouse_in_world") (fun m =>
    bind (dec_v3 m) (fun mouse =>
    bind (const_at i "pos_click_in_link") (fun c =>
    bind (dec_v3 c) (fun click =>
    bind (q_Position (to_int link) click ab) (fun '(ab, p) =>
    Ok (ab, fun k => if Z.eqb (Z.of_nat k) link then Some (click_force mouse p) else None)))))))))).

(** apps/opspace/src/main.cc:242-257 *)
Definition adjust_position (key : string) (p : v3) : v3 :=
  let up := klit 1 1 * gain_key_press in
  let down := klit (-1) 1 * gain_key_press in
  match key with
  | EmptyString => p
  | String c _ =>
    if Ascii.eqb c "a" then V3 (vx p + down) (vy p) (vz p)
    else if Ascii.eqb c "d" then V3 (vx p + up) (vy p) (vz p)
    else if Ascii.eqb c "w" then V3 (vx p) (vy p + up) (vz p)
    else if Ascii.eqb c "s" then V3 (vx p) (vy p + down) (vz p)
    else if Ascii.eqb c "e" then V3 (vx p) (vy p) (vz p + up)
    else if Ascii.eqb c "q" then V3 (vx p) (vy p) (vz p + down)
    else p
  end.

(** What an iteration gets from Redis and from the timer; [None] if Redis has no such
    value, for which the future throws (main.cc:113-120 and 163). *)
Record tick := Tick {
  t_pos : option (K * K);
  t_ori : option (K * K);
  t_joint : option (K * K);
  t_web : option val;
  t_dt : K }.
(** [std::future::get] (main.cc:128, 133, 150 and 157) *)
Definition get_future {A} (x : option A) : res A := match x with Some a => Ok a | None => Throw end.

(** The local variables of main that outlive an iteration (main.cc:91-97). *)
Record app := App { a_ab : body; a_q : list K; a_x : v3; a_R : m3 }.
(** What an iteration puts into Redis (main.cc:166-171), then the external forces and
    whether the integrator converged, which the program does not report. *)
Record frame := Frame {
  f_tau : list K; f_goal : v3; f_q : list K; f_dq : list K; f_x : v3; f_R : m3;
  f_fe : fmap; f_done : bool }.

(** apps/opspace/src/main.cc:92-97; the constant kQHome is an argument. *)
Definition app_start (home : list K) (ab : body) : res app :=
  bind (called (set_q home ab)) (fun ab =>
  bind (q_Position (-1) ee_offset ab) (fun '(ab, x) =>
  bind (q_Orientation (-1) ab) (fun '(ab, R) => Ok (App ab home x R)))).

(** apps/opspace/src/main.cc:122-154: the torques, and the measured position and
    orientation. *)
Definition app_control (t : tick) (q_des : list K) (x_des : v3) (R_des : m3) (ab : body) : res (body * (list K * v3 * m3)) :=
  let n := ab_dof ab in
  bind (q_Jacobian (-1) ee_offset ab) (fun '(ab, J) =>
  let J := jac_rows J in
  bind (q_Position (-1) ee_offset ab) (fun '(ab, x) =>
  let dx := lmulv 3 n (firstn 3 J) (ab_dq ab) in
  bind (get_future (t_pos t)) (fun g =>
  let ddx := pd_pos x x_des dx g in
  bind (q_Orientation (-1) ab) (fun '(ab, R) =>
  let w := lmulv 3 n (skipn 3 J) (ab_dq ab) in
  bind (get_future (t_ori t)) (fun g =>
  let dw := pd_ori R R_des w g in
  bind (q_ops_IsSingular solve pinv J 0 ab) (fun '(ab, singular) =>
  bind (if singular
        then q_ops_InverseDynamics solve pinv (firstn 3 J) ddx (Some []) no_force true ops_default ab
        else q_ops_InverseDynamics solve pinv J (ddx ++ dw) (Some []) no_force true ops_default ab) (fun '(ab, (N, tau)) =>
  bind (get_future (t_joint t)) (fun g =>
  let ddq := pd_joint (ab_q ab) q_des (ab_dq ab) g in
  bind (q_ops_InverseDynamics solve pinv (lid n) ddq N no_force true ops_default ab) (fun '(ab, (_, t)) =>
  bind (q_Gravity ab) (fun '(ab, G) =>
  Ok (ab, (vadd (vadd tau t) G, x, R)))))))))))).

(** options.h:239 *)
Definition variational_epsilon : K := klit 1 100000000.
(** options.h:244 *)
Definition max_iterations : nat := 100.

(** apps/opspace/src/main.cc:112-172 *)
Definition app_step (t : tick) (s : app) : res (app * frame) :=
  bind (app_control t (a_q s) (a_x s) (a_R s) (a_ab s)) (fun '(ab, (tau, x, R)) =>
  bind (get_future (t_web t)) (fun i =>
  bind (compute_external_forces i ab) (fun '(ab, fe) =>
  bind (string_at i "key_down") (fun key =>
  let x_des := adjust_position key (a_x s) in
  bind (q_DiscreteIntegrate solve log6 dlog6 norm tau (t_dt t) fe true variational_epsilon max_iterations ab) (fun '(ab, done) =>
  Ok (App ab (a_q s) x_des (a_R s), Frame tau x_des (ab_q ab) (ab_dq ab) x R fe done)))))).

(** The loop, main.cc:110-176: what the iterations put into Redis, and the variables if
    the loop was not left by an exception. *)
Fixpoint app_loop (ts : list tick) (s : app) : res (list frame * option app) :=
  match ts with
  | [] => Ok ([], Some s)
  | t :: ts =>
    match app_step t s with
    | Ok (s, f) => bind (app_loop ts s) (fun '(fs, e) => Ok (f :: fs, e))
    | Throw => Ok ([], None)
    | UB => UB
    end
  end.
End App.
