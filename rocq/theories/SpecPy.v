(** Specifications: functions of the Python module (C65). *)
From Coq Require Import List Arith ZArith Bool String.
From Verif Require Import Scalar Base Spatial Joint Body Kin InvDyn FwdDyn Opspace Deriv Sim Ops PyFuns Specs SpecCache SpecDyn SpecOps.
Import ListNotations.

Section SpecPy.
Context {S : Scal}.
(** Where numpy keeps element (i, j): strides are counted in elements. *)
Definition place (v : view) (i j : nat) : Z := (v_ptr v + Z.of_nat i * v_down v + Z.of_nat j * v_right v)%Z.
(** The array holds the matrix [A]. *)
Definition holds (v : view) (m : store) (A : list (list K)) : Prop :=
  forall i j, i < v_rows v -> j < v_cols v -> m (place v i j) = entry A i j.
(** No two elements of the array share an address (arrays made by broadcasting do). *)
Definition separate (v : view) : Prop :=
  forall i j i' j', i < v_rows v -> j < v_cols v -> i' < v_rows v -> j' < v_cols v -> place v i j = place v i' j' -> i = i' /\ j = j'.
(** An address that is not the array's. *)
Definition beside (v : view) (a : Z) : Prop := forall i j, i < v_rows v -> j < v_cols v -> place v i j <> a.
Definition square_array (n : nat) (v : view) : Prop := v_rows v = n /\ v_cols v = n.
(** What can be passed as N for a robot of [n] joints. *)
Definition acceptable (n : nat) (N : narg) : Prop :=
  match N with NNone => True | NView v => square_array n v | NCopy A => sized n n A | NBad => False end.
(** A Python program which calls opspace.inverse_dynamics for one task after another with
    one array [v], and adds up the torques. *)
Fixpoint py_stack solve pinv (v : narg) (tasks : list task) (m : store) (tau : list K) (ab : body) : option (body * (store * list K)) :=
  match tasks with
  | nil => Some (ab, (m, tau))
  | t :: rest =>
    match py_ops_id solve pinv (t_J t) (t_ddx t) v (t_fe t) (t_fe_empty t) (t_o t) m ab with
    | Ok (ab', (m', tau')) => py_stack solve pinv v rest m' (map (fun k => kadd (coef tau k) (coef tau' k)) (seq 0 (ab_dof ab))) ab'
    | _ => None
    end
  end.
End SpecPy.
(** The names of the integration methods. *)
Definition method_name (w : int_method) : string := match w with MEuler => "euler" | MHeun => "heuns" | MRk4 => "rk4" end.
