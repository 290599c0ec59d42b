(** Functions of the Python module that take or return numpy arrays, names or optional
    arguments. *)
From Coq Require Import List Arith ZArith Bool String.
From Verif Require Import Scalar Base Spatial Joint Body Kin InvDyn FwdDyn Opspace Deriv Sim Ops Matlab.
Import ListNotations.
Local Open Scope string_scope.

Section PyFuns.
Context {S : Scal}.
Variable solve : list (list K) -> list K -> list K.
Variable pinv : list (list K) -> K -> list (list K) * bool.
Local Open Scope k_scope.

(** The memory numpy arrays of doubles live in, by address counted in doubles
    (python/spatial_dyn.cc:574-579; strides that are not whole doubles, which the code
    rounds towards zero, are left out). *)
Definition store := Z -> K.
(** A two-dimensional array of doubles: py::buffer_info with ptr, shape[0], shape[1],
    strides[0], strides[1] (python/spatial_dyn.cc:556 and 574-579).  Slices, transposes and
    reversed arrays are such views of memory they share. *)
Record view := View { v_ptr : Z; v_rows : nat; v_cols : nat; v_down : Z; v_right : Z }.
(** Eigen::Map with outer stride strides[1] and inner stride strides[0]
    (python/spatial_dyn.cc:574-579) *)
Definition addr (v : view) (i j : nat) : Z := (v_ptr v + Z.of_nat i * v_down v + Z.of_nat j * v_right v)%Z.
(** [Eigen::MatrixXd N_temp = N_map], python/spatial_dyn.cc:580; no rows if the array has
    no element, as opspace_dynamics.cc:37 and 72 look at the size only *)
Definition load (v : view) (m : store) : lmat :=
  match v_cols v with O => [] | _ => mat (v_rows v) (v_cols v) (fun i j => m (addr v i j)) end.
(** a double written through N_map, python/spatial_dyn.cc:584 *)
Definition poke (m : store) (a : Z) (x : K) : store := fun b => if Z.eqb b a then x else m b.
(** [N_map = N_temp], python/spatial_dyn.cc:584, column by column *)
Definition save (v : view) (A : lmat) (m : store) : store :=
  fold_left (fun m '(j, i) => poke m (addr v i j) (ent A i j)) (list_prod (seq 0 (v_cols v)) (seq 0 (v_rows v))) m.

(** The argument [py::array_t<double> N] of opspace.inverse_dynamics
    (python/spatial_dyn.cc:550): None or a number (an array without dimensions); an array
    of doubles; a two-dimensional array of another type, which pybind11 converts to a new
    array of doubles; an array of one dimension or more than two. *)
Inductive narg := NNone | NView (v : view) | NCopy (A : lmat) | NBad.
(** python/spatial_dyn.cc:546-590.  A map cannot be resized: Eigen asserts that the shapes
    agree on assignment. *)
Definition py_ops_id (J : lmat) (ddx : list K) (N : narg) (fe : fmap) (fe_empty : bool) (o : ops_opts) (m : store) (ab : body) :
    res (body * (store * list K)) :=
  match N with
  | NNone => bind (q_ops_InverseDynamics solve pinv J ddx None fe fe_empty o ab) (fun '(ab, (_, tau)) => Ok (ab, (m, tau)))
  | NView v =>
    bind (q_ops_InverseDynamics solve pinv J ddx (Some (load v m)) fe fe_empty o ab) (fun '(ab, (N, tau)) =>
    if (Nat.eqb (v_rows v) (ab_dof ab) && Nat.eqb (v_cols v) (ab_dof ab))%bool
    then Ok (ab, (match N with Some A => save v A m | None => m end, tau)) else UB)
  | NCopy A =>
    bind (q_ops_InverseDynamics solve pinv J ddx (Some A) fe fe_empty o ab) (fun '(ab, (_, tau)) =>
    if shape (ab_dof ab) (ab_dof ab) A then Ok (ab, (m, tau)) else UB)
  | NBad => Throw
  end.

(** hessian, python/spatial_dyn.cc:426-440: a copy of the tensor's data, read with the
    strides given: entry (i, j, k) *)
Definition py_hessian (link : Z) (offset : v3) (ab : body) : res (body * (nat -> nat -> nat -> K)) :=
  bind (q_Hessian link offset ab) (fun '(ab, H) =>
  let data := flat_hess (ab_dof ab) H in
  let dof := ab_dof ab in
  Ok (ab, fun i j k => nth (i + dof * j + dof * dof * k) data 0)).

(** kStringToMethod, python/spatial_dyn.cc:481-484 *)
Definition method_of (s : string) : option int_method :=
  if String.eqb s "euler" then Some MEuler else if String.eqb s "heuns" then Some MHeun else if String.eqb s "rk4" then Some MRk4 else None.
(** integrate, python/spatial_dyn.cc:475-500 *)
Definition py_integrate (tau : list K) (dt : K) (fe : fmap) (gravity cc friction limits : bool) (method : string) (aba : bool) (stiction : K) (ab : body) : mres body unit :=
  match method_of (lower method) with
  | None => Exn ab
  | Some w => match integrate (sim_fd solve aba tau fe (IdOpts gravity cc friction stiction)) (IntOpts limits w) dt ab with
              | Ok ab => Ret ab tt | Throw => Exn ab | UB => Bad
              end
  end.

(** The functions of a link, with [q] None or given: position, orientation (its rotation
    matrix), cartesian_pose, jacobian, linear_jacobian, angular_jacobian
    (python/spatial_dyn.cc:357-425).  angular_jacobian has an unused offset (412-423). *)
Inductive pyfun := PyPosition (off : v3) | PyOrientation | PyPose (off : v3) | PyJacobian (off : v3) | PyLinear (off : v3) | PyAngular (off : v3).
Definition py_at_state (f : pyfun) (link : Z) : query :=
  match f with
  | PyPosition off => QPos link off | PyOrientation => QOri link | PyPose off => QPose link off
  | PyJacobian off => QJac link off | PyLinear off => QLin link off | PyAngular _ => QAng link
  end.
Definition py_at (f : pyfun) (link : Z) (q : list K) (ab : body) : res answer :=
  match f with
  | PyPosition off => bind (Position_q ab q link off) (fun x => Ok (AV3 x))
  | PyOrientation => bind (Orientation_q ab q link) (fun R => Ok (AM3 R))
  | PyPose off => bind (CartesianPose_q ab q link off) (fun T => Ok (AIso T))
  | PyJacobian off => bind (Jacobian_q ab q link off) (fun J => Ok (AMots J))
  | PyLinear off => bind (Jacobian_q ab q link off) (fun J => Ok (AV3s (map mlin J)))
  | PyAngular _ => bind (Jacobian_q ab q link v3zero) (fun J => Ok (AV3s (map mang J)))
  end.
Definition py_kin (f : pyfun) (link : Z) (q : option (list K)) (ab : body) : res (body * answer) :=
  match q with
  | None => ask solve pinv (py_at_state f link) ab
  | Some q => bind (py_at f link q ab) (fun a => Ok (ab, a))
  end.
End PyFuns.
