(** The simulator in Python, apps/opspace/python/spatial_dyn_opspace.py. *)
From Coq Require Import List Arith ZArith Bool String Ascii.
From Verif Require Import Scalar Base Spatial Joint Body Kin InvDyn FwdDyn Opspace OpspaceAba Deriv Sim Ops Control Discrete Json App PyFuns.
Import ListNotations.
Local Open Scope string_scope.

(** The functions of the submodule spatialdyn.opspace, python/spatial_dyn.cc:541-618 (those
    in the comment of 542-546 are not there). *)
Definition opspace_names : list string :=
  ["is_singular"; "inverse_dynamics"; "inertia"; "inertia_inverse"; "jacobian_dynamic_inverse"; "centrifugal_coriolis"; "gravity";
   "external_forces"; "friction"; "inertia_aba"; "inertia_inverse_aba"; "centrifugal_coriolis_aba"; "gravity_aba"].

Section PyApp.
Context {S : Scal}.
Local Open Scope k_scope.
Variable solve : lmat -> list K -> list K.
Variable pinv : lmat -> K -> lmat * bool.
(** opspace.near_quaternion and opspace.orientation_error if they were functions of the
    module; orientations are given by their matrices. *)
Variable near_quaternion : m3 -> m3 -> m3.
Variable orientation_error : m3 -> m3 -> list K.
(** the names the submodule has *)
Variable names : list string.

(** The expression spatialdyn.opspace.n (spatial_dyn_opspace.py:73, 127, 133, 134, 137, 142):
    AttributeError if there is no such name. *)
Definition getattr (n : string) : res unit := if existsb (String.eqb n) names then Ok tt else Throw.

(** apps/opspace/python/spatial_dyn_opspace.py:74 *)
Definition pd_array (x goal dx : list K) (g : K * K) : list K :=
  map (fun i => kopp (fst g) * (nth i x 0 - nth i goal 0) - snd g * nth i dx 0) (seq 0 (List.length x)).
(** spatial_dyn_opspace.py:72-73 *)
Definition pd_quat (R goal : m3) (w : list K) (g : K * K) : res (list K) :=
  bind (getattr "orientation_error") (fun _ =>
  Ok (map (fun i => kopp (fst g) * nth i (orientation_error R goal) 0 - snd g * nth i w 0) (seq 0 3))).

(** The item of a dict: KeyError if it is not there, TypeError for other values
    (spatial_dyn_opspace.py:149, 203, 208-210). *)
Definition item (v : val) (k : string) : res val :=
  match v with VObj l => match assoc k l with Some x => Ok x | None => Throw end | _ => Throw end.
(** spatial_dyn_opspace.py:199-222 and 152: the forces as integrate gets them; pybind11 does
    not convert a negative key to size_t. *)
Definition py_external_forces (i : val) (ab : body) : res (body * fmap * bool) :=
  bind (item i "key_object") (fun o =>
  if match o with VStr s => String.eqb s (key_models_prefix ++ ab_name ab) | _ => false end then
    bind (item i "idx_link") (fun l =>
    bind (match l with VInt z => Ok z | VBool b => Ok (if b then 1 else 0)%Z | _ => Throw end) (fun link =>
    bind (item i "pos_mouse_in_world") (fun m =>
    bind (dec_v3 m) (fun mouse =>
    bind (item i "pos_click_in_link") (fun c =>
    bind (dec_v3 c) (fun click =>
    bind (q_Position link click ab) (fun '(ab, p) =>
    if (link <? 0)%Z then Throw
    else Ok (ab, (fun k => if Z.eqb (Z.of_nat k) link then Some (click_force mouse p) else None), false))))))))
  else Ok (ab, no_force, true)).
(** spatial_dyn_opspace.py:224-251.  What is false as a condition changes nothing;
    numbers and booleans have no items. *)
Definition py_adjust_position (key : val) (p : v3) : res v3 :=
  match key with
  | VNull => Ok p
  | VBool b => if b then Throw else Ok p
  | VInt z => if Z.eqb z 0 then Ok p else Throw
  | VNum _ => Throw
  | VStr s => Ok (adjust_position s p)
  | VArr [] => Ok p
  | VArr (VStr s :: _) => Ok (if Nat.eqb (String.length s) 1 then adjust_position s p else p)
  | VArr _ => Ok p
  | VObj [] => Ok p
  | VObj _ => Throw
  end.

(** opspace.inverse_dynamics with svd_epsilon given, python/spatial_dyn.cc:591-593 *)
Definition py_opts (e : K) : ops_opts := OpsOpts false false false e (klit 1 100) 0.
Definition rows3 (x : v3) : list K := [vx x; vy x; vz x].

(** spatial_dyn_opspace.py:106-161: one iteration.  N is changed in place (C65_nullspace):
    here it is passed on.  What Redis returns is decoded first; an answer that is not there
    or is no JSON raises. *)
Definition py_app_step (t : tick) (s : app) : res (app * frame) :=
  let ab := a_ab s in
  let n := ab_dof ab in
  bind (get_future (t_pos t)) (fun gp =>
  bind (get_future (t_ori t)) (fun go =>
  bind (get_future (t_joint t)) (fun gj =>
  bind (get_future (t_web t)) (fun i =>
  bind (q_Jacobian (-1) ee_offset ab) (fun '(ab, J) =>
  let J := jac_rows J in
  bind (q_Position (-1) ee_offset ab) (fun '(ab, x) =>
  let dx := lmulv 3 n (firstn 3 J) (ab_dq ab) in
  let ddx := pd_array (rows3 x) (rows3 (a_x s)) dx gp in
  bind (getattr "near_quaternion") (fun _ =>
  bind (q_Orientation (-1) ab) (fun '(ab, R) =>
  let R := near_quaternion R (a_R s) in
  let w := lmulv 3 n (skipn 3 J) (ab_dq ab) in
  bind (pd_quat R (a_R s) w go) (fun dw =>
  bind (getattr "is_singular") (fun _ =>
  bind (q_ops_IsSingular solve pinv J (klit 1 100) ab) (fun '(ab, singular) =>
  bind (getattr "inverse_dynamics") (fun _ =>
  bind (if singular
        then q_ops_InverseDynamics solve pinv (firstn 3 J) ddx (Some (lid n)) no_force true (py_opts (klit 1 100)) ab
        else q_ops_InverseDynamics solve pinv J (ddx ++ dw) (Some (lid n)) no_force true (py_opts (klit 1 100)) ab) (fun '(ab, (N, tau)) =>
  let ddq := pd_array (ab_q ab) (a_q s) (ab_dq ab) gj in
  bind (q_ops_InverseDynamics solve pinv (lid n) ddq N no_force true (py_opts 0) ab) (fun '(ab, (_, t1)) =>
  bind (q_Gravity ab) (fun '(ab, G) =>
  let tau := vadd (vadd tau t1) G in
  bind (py_external_forces i ab) (fun '(ab, fe, _) =>
  bind (item i "key_down") (fun key =>
  bind (py_adjust_position key (a_x s)) (fun x_des =>
  match py_integrate solve tau (t_dt t) fe true true false false "rk4" false (klit 1 100) ab with
  | Ret ab _ => Ok (App ab (a_q s) x_des (a_R s), Frame tau x_des (ab_q ab) (ab_dq ab) x R fe true)
  | Exn _ => Throw
  | Bad => UB
  end)))))))))))))))))).

(** What the program sends to Redis about the robot: the positions at the start (94), what an
    iteration sends (155-161), the torques at the end (167). *)
Inductive sent := SentQ (q : list K) | SentFrame (f : frame) | SentTau (tau : list K).
(** spatial_dyn_opspace.py:104-164: the iterations until the program is interrupted, or until
    one of them raises; the exception is printed and forgotten. *)
Fixpoint py_app_loop (ts : list tick) (s : app) : res (list frame) :=
  match ts with
  | [] => Ok []
  | t :: ts =>
    match py_app_step t s with
    | Ok (s, f) => bind (py_app_loop ts s) (fun fs => Ok (f :: fs))
    | Throw => Ok []
    | UB => UB
    end
  end.
(** spatial_dyn_opspace.py:76-170; [ab] is the robot just loaded, [home] Q_HOME.  Not
    modelled: the description of the robot and the gains sent at the start (93-98). *)
Definition py_app (home : list K) (ts : list tick) (ab : body) : res (list sent) :=
  bind (app_start home ab) (fun s =>
  bind (py_app_loop ts s) (fun fs =>
  Ok (SentQ (ab_q (a_ab s)) :: map SentFrame fs ++ [SentTau (repeat 0 (ab_dof (a_ab s)))]))).
End PyApp.
