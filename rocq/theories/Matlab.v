(** src/matlab/*.cc: the MATLAB functions.  Each is a MEX entry point
    [operator()(outputs, inputs)].  Modelled from the point where the robot pointer has
    been read from inputs[0] and found non-null; [args] are the inputs after it. *)
From Coq Require Import List Arith ZArith Bool String.
From Verif Require Import Scalar Base Spatial Joint Body Kin InvDyn FwdDyn Opspace OpspaceAba Deriv Sim Ops Control Ik Discrete.
Import ListNotations.

Section Matlab.
Context {S : Scal}.
Local Open Scope k_scope.
Variable solve : lmat -> list K -> list K.
Variable pinv : lmat -> K -> lmat * bool.
Variable log6 : iso -> motion.
Variable dlog6 : iso -> i6.

(** matlab::data::TypedArray<double>: the dimensions and the contents, first index
    fastest (e.g. gravity.cc:41-42). *)
Record marr := MA { m_dim : list nat; m_data : list K }.
(** An input: an array of doubles or of characters (e.g. jacobian.cc:41, 55). *)
Inductive marg := MNum (a : marr) | MStr (s : string).
(** The call returned, with or without an output; whatever it printed on stderr is
    not modelled (e.g. gravity.cc:43-47, 68). *)
Definition mex := res (body * option marr).
(** [TypedArray<double> a = inputs[i]], which throws for another type (e.g. gravity.cc:41). *)
Definition numeric (x : marg) : res marr := match x with MNum a => Ok a | MStr _ => Throw end.
(** [CharArray a = inputs[i]] (e.g. jacobian.cc:55). *)
Definition textual (x : marg) : res string := match x with MStr s => Ok s | MNum _ => Throw end.
(** [!dim.empty() && dim[0] == n] (e.g. gravity.cc:43-47). *)
Definition rows_are (n : nat) (a : marr) : bool := match m_dim a with nil => false | d :: _ => Nat.eqb d n end.
(** The product of the other dimensions (e.g. gravity.cc:50-56). *)
Definition m_cols (a : marr) : nat := fold_left Nat.mul (tl (m_dim a)) 1%nat.
(** [Map<const MatrixXd>(begin, rows, n).col(i)]; reading past the contents is
    undefined (e.g. gravity.cc:61, 66). *)
Definition m_col (rows : nat) (a : marr) (i : nat) : res (list K) :=
  let x := firstn rows (skipn (rows * i) (m_data a)) in
  if Nat.eqb (List.length x) rows then Ok x else UB.

(** Column-major contents of an r x c matrix (e.g. inertia.cc:64-67). *)
Definition flat (r c : nat) (A : lmat) : list K := List.concat (mat c r (fun j i => ent A i j)).
(** and of the tensor of the Hessian: H(i,j,k) at i + dof j + dof^2 k (hessian.cc:64-67) *)
Definition flat_hess (n : nat) (H : list (list motion)) : list K :=
  List.concat (map (fun k => List.concat (mat n n (fun j i => nth k (m6 (nth j (nth i H nil) mzero)) 0))) (seq 0 6)).
(** a Vector3d (position.cc:79-81) *)
Definition flat3 (v : v3) : list K := [vx v; vy v; vz v].

(** The loop over the columns.  Every round writes one block of the output at the
    running offset; the blocks have the length of that offset's step, so the output is
    their concatenation (e.g. gravity.cc:62-68). *)
Fixpoint mex_loop (l : list nat) (call : nat -> body -> res (body * list K)) (ab : body) : res (body * list K) :=
  match l with
  | nil => Ok (ab, nil)
  | i :: l => bind (call i ab) (fun '(ab, x) => bind (mex_loop l call ab) (fun '(ab, xs) => Ok (ab, x ++ xs)))
  end.
(** The part the functions share: the robot is moved to each column of Q in turn
    (gravity.cc:48-68, inertia.cc:48-69, hessian.cc:50-71, centrifugal_coriolis.cc:61-83,
    jacobian_dynamic_inverse.cc:75-95). *)
Definition mex_over (Q : marr) (dims : list nat) (call : nat -> body -> res (body * list K)) (ab : body) : mex :=
  bind (mex_loop (seq 0 (m_cols Q)) (fun i ab =>
          bind (m_col (ab_dof ab) Q i) (fun q => bind (called (set_q q ab)) (call i))) ab) (fun '(ab, d) =>
  Ok (ab, Some (MA (dims ++ tl (m_dim Q)) d))).

(** gravity.cc:23-69 *)
Definition mex_gravity (args : list marg) (ab : body) : mex :=
  let n := ab_dof ab in
  match args with
  | nil => bind (q_Gravity ab) (fun '(ab, G) => Ok (ab, Some (MA [n] G)))
  | Q :: _ => bind (numeric Q) (fun Q =>
    if rows_are n Q then mex_over Q [n] (fun _ => q_Gravity) ab else Ok (ab, None))
  end.
(** inertia.cc:23-70 *)
Definition mex_inertia (args : list marg) (ab : body) : mex :=
  let n := ab_dof ab in
  let one ab := bind (q_Inertia ab) (fun '(ab, A) => Ok (ab, flat n n A)) in
  match args with
  | nil => bind (one ab) (fun '(ab, d) => Ok (ab, Some (MA [n; n] d)))
  | Q :: _ => bind (numeric Q) (fun Q =>
    if rows_are n Q then mex_over Q [n; n] (fun _ => one) ab else Ok (ab, None))
  end.
(** hessian.cc:23-72 *)
Definition mex_hessian (args : list marg) (ab : body) : mex :=
  let n := ab_dof ab in
  let one ab := bind (q_Hessian (-1) v3zero ab) (fun '(ab, H) => Ok (ab, flat_hess n H)) in
  match args with
  | nil => bind (one ab) (fun '(ab, d) => Ok (ab, Some (MA [n; n; 6] d)))
  | Q :: _ => bind (numeric Q) (fun Q =>
    if rows_are n Q then mex_over Q [n; n; 6] (fun _ => one) ab else Ok (ab, None))
  end.
(** centrifugal_coriolis.cc:23-84.  Fewer than three inputs: returns at once (the branch
    of lines 31-37 is never reached).  Lines 57-59 only print a message. *)
Definition mex_coriolis (args : list marg) (ab : body) : mex :=
  let n := ab_dof ab in
  match args with
  | Q :: dQ :: _ =>
    bind (numeric Q) (fun Q => if negb (rows_are n Q) then Ok (ab, None) else
    bind (numeric dQ) (fun dQ => if negb (rows_are n dQ) then Ok (ab, None) else
    mex_over Q [n] (fun i ab =>
      bind (m_col n dQ i) (fun dq => bind (called (set_dq dq ab)) q_CentrifugalCoriolis)) ab))
  | _ => Ok (ab, None)
  end.

(** [dim.size() == 2 && dim[0] == n] (e.g. inverse_dynamics.cc:33-40) *)
Definition matrix_of (n : nat) (a : marr) : bool := Nat.eqb (List.length (m_dim a)) 2 && rows_are n a.
(** [dim_a == dim_b] (inverse_dynamics.cc:53-56) *)
Definition same_dims (a b : marr) : bool := if list_eq_dec Nat.eq_dec (m_dim a) (m_dim b) then true else false.
(** The three functions of (Q, dQ, ddQ), which differ in what they call
    (inverse_dynamics.cc:23-99, inverse_dynamics_position_derivative.cc:23-100,
    inverse_dynamics_velocity_derivative.cc:23-100). *)
Definition mex_three (dims : list nat) (call : list K -> body -> res (body * list K)) (args : list marg) (ab : body) : mex :=
  let n := ab_dof ab in
  match args with
  | Q :: dQ :: ddQ :: _ =>
    bind (numeric Q) (fun Q => if negb (matrix_of n Q) then Ok (ab, None) else
    bind (numeric dQ) (fun dQ => if negb (matrix_of n dQ && same_dims dQ Q) then Ok (ab, None) else
    bind (numeric ddQ) (fun ddQ => if negb (matrix_of n ddQ && same_dims ddQ Q) then Ok (ab, None) else
    mex_over Q dims (fun i ab =>
      bind (m_col n dQ i) (fun dq => bind (called (set_dq dq ab)) (fun ab =>
      bind (m_col n ddQ i) (fun ddq => call ddq ab)))) ab)))
  | _ => Ok (ab, None)
  end.
(** inverse_dynamics.cc:89: gravity and centrifugal terms, no friction (options.h:41-53) *)
Definition mex_options : id_opts := IdOpts true true false (klit 1 100).
(** inverse_dynamics.cc:23-99 *)
Definition mex_inverse_dynamics (args : list marg) (ab : body) : mex :=
  mex_three [ab_dof ab] (fun ddq => q_InverseDynamics ddq no_force mex_options) args ab.
(** inverse_dynamics_velocity_derivative.cc:23-100 *)
Definition mex_velocity_derivative (args : list marg) (ab : body) : mex :=
  let n := ab_dof ab in
  mex_three [n; n] (fun ddq ab =>
    bind (q_VelocityDerivative ddq no_force mex_options ab) (fun '(ab, A) => Ok (ab, flat n n A))) args ab.
(** inverse_dynamics_position_derivative.cc:23-100 *)
Definition mex_position_derivative (args : list marg) (ab : body) : mex :=
  let n := ab_dof ab in
  mex_three [n; n] (fun ddq ab =>
    bind (q_PositionDerivative ddq no_force mex_options ab) (fun '(ab, A) => Ok (ab, flat n n A))) args ab.

(** The named arguments: pairs of a name and a value, other names and a name without a
    value ignored; [None] if the function returned early (position.cc:49-71,
    jacobian.cc:50-72, jacobian_dynamic_inverse.cc:51-73, inverse_kinematics.cc:70-92). *)
Fixpoint named (args : list marg) (link : Z) (off : v3) : res (option (Z * v3)) :=
  match args with
  | name :: value :: args =>
    bind (textual name) (fun s =>
    if String.eqb s "offset" then
      bind (numeric value) (fun a => if rows_are 3 a then
        match m_data a with x :: y :: z :: _ => named args link (V3 x y z) | _ => UB end
      else Ok None)
    else if String.eqb s "link" then
      bind (numeric value) (fun a => if rows_are 1 a then
        match m_data a with x :: _ => named args (ktrunc x) off | _ => UB end
      else Ok None)
    else named args link off)
  | _ => Ok (Some (link, off))
  end.
(** The loops of position and jacobian, which leave the robot alone (position.cc:86-91, jacobian.cc:88-93). *)
Definition mex_each (Q : marr) (dims : list nat) (call : list K -> res (list K)) (ab : body) : mex :=
  bind (mex_loop (seq 0 (m_cols Q)) (fun i ab =>
          bind (m_col (ab_dof ab) Q i) (fun q => bind (call q) (fun x => Ok (ab, x)))) ab) (fun '(ab, d) =>
  Ok (ab, Some (MA (dims ++ tl (m_dim Q)) d))).
(** position.cc:23-93 *)
Definition mex_position (args : list marg) (ab : body) : mex :=
  match args with
  | nil => bind (q_Position (-1) v3zero ab) (fun '(ab, x) => Ok (ab, Some (MA [3] (flat3 x))))
  | Q :: args => bind (numeric Q) (fun Q =>
    if rows_are (ab_dof ab) Q then
      bind (named args (-1) v3zero) (fun o => match o with
      | None => Ok (ab, None)
      | Some (link, off) => mex_each Q [3] (fun q => bind (Position_q ab q link off) (fun x => Ok (flat3 x))) ab
      end)
    else Ok (ab, None))
  end.
(** jacobian.cc:23-95 *)
Definition mex_jacobian (args : list marg) (ab : body) : mex :=
  let n := ab_dof ab in
  match args with
  | nil => bind (q_Jacobian (-1) v3zero ab) (fun '(ab, J) => Ok (ab, Some (MA [6; n] (List.concat (map m6 J)))))
  | Q :: args => bind (numeric Q) (fun Q =>
    if rows_are n Q then
      bind (named args (-1) v3zero) (fun o => match o with
      | None => Ok (ab, None)
      | Some (link, off) => mex_each Q [6; n] (fun q => bind (Jacobian_q ab q link off) (fun J => Ok (List.concat (map m6 J)))) ab
      end)
    else Ok (ab, None))
  end.
(** jacobian_dynamic_inverse.cc:23-96.  The map of line 36 is declared with 6 rows and given
    dof of them.  Lines 51-73 read a link and an offset; line 93 does not use them. *)
Definition mex_jbar (args : list marg) (ab : body) : mex :=
  let n := ab_dof ab in
  let one ab := bind (q_Jacobian (-1) v3zero ab) (fun '(ab, J) =>
    bind (q_ops_JacobianDynamicInverse solve pinv (jac_rows J) 0 ab) (fun '(ab, B) => Ok (ab, flat n 6 B))) in
  match args with
  | nil => if Nat.eqb n 6 then bind (one ab) (fun '(ab, d) => Ok (ab, Some (MA [n; 6] d))) else UB
  | Q :: args => bind (numeric Q) (fun Q =>
    if rows_are n Q then
      bind (named args (-1) v3zero) (fun o => match o with
      | None => Ok (ab, None)
      | Some _ => mex_over Q [n; 6] (fun _ => one) ab
      end)
    else Ok (ab, None))
  end.

(** discrete_inverse_dynamics.cc:23-65; the options are the defaults (gravity). *)
Definition mex_discrete (args : list marg) (ab : body) : mex :=
  let n := ab_dof ab in
  match args with
  | Q :: dt :: _ =>
    bind (numeric Q) (fun Q =>
    match m_dim Q with
    | [d; w] =>
      if negb (Nat.eqb d n) then Ok (ab, None)
      else if Nat.ltb w 2 then Ok (ab, None)
      else bind (numeric dt) (fun dt => match m_data dt with
        | nil => UB
        | dt :: _ =>
          bind (mex_loop (seq 0 (w - 2)) (fun i ab =>
            bind (m_col n Q i) (fun q0 => bind (m_col n Q (i + 1)) (fun q1 => bind (m_col n Q (i + 2)) (fun q2 =>
            bind (called (set_q q1 ab)) (fun ab =>
            bind (called (set_dq (vec n (fun j => (qk q1 j - qk q0 j) / dt)) ab)) (fun ab =>
            q_DiscreteID log6 dlog6 q2 dt no_force true ab)))))) ab) (fun '(ab, d) =>
          Ok (ab, Some (MA [n; (w - 2)%nat] d)))
        end)
    | _ => Ok (ab, None)
    end)
  | _ => Ok (ab, None)
  end.

(** inverse_kinematics.cc:23-99.  [goal] makes the goal out of the position and the four
    numbers (w, x, y, z) handed to the quaternion constructor; [sz] as in Ik.v.  Line 57
    maps the four numbers from the beginning of x, not of quat; line 61 reads a fourth
    input that line 36 has not asked for. *)
Definition mex_inverse_kinematics (goal : v3 -> K * K * K * K -> ik_goal) (sz : option nat) (args : list marg) (ab : body) : mex :=
  match args with
  | x :: quat :: args =>
    bind (numeric x) (fun x => if negb (rows_are 3 x) then Ok (ab, None) else
    bind (numeric quat) (fun quat => if negb (rows_are 4 quat) then Ok (ab, None) else
    match m_data x with
    | a :: b :: c :: d :: _ =>
      match args with
      | nil => UB
      | q0 :: args =>
        bind (numeric q0) (fun q0 => if negb (rows_are (ab_dof ab) q0) then Ok (ab, None) else
        bind (m_col (ab_dof ab) q0 0) (fun q => bind (called (set_q q ab)) (fun ab =>
        bind (named args (-1) v3zero) (fun o => match o with
        | None => Ok (ab, None)
        | Some (link, off) =>
          bind (inverse_kinematics solve pinv (goal (V3 a b c) (a, b, c, d)) link off sz ab) (fun '(_, _, q) =>
          Ok (ab, Some (MA [ab_dof ab] q)))
        end))))
      end
    | _ => UB
    end))
  | _ => Ok (ab, None)
  end.
End Matlab.
