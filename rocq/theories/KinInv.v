(** The inverse transforms of an articulated body, the Python methods for transforms, and
    Map. *)
From Coq Require Import List Arith ZArith Bool.
From Verif Require Import Scalar Base Spatial Joint Body Kin.
Import ListNotations.

Section KinInv.
Context {S : Scal}.
(** articulated_body.h:317.  [inverse()] of an Eigen::Isometry3d transposes the rotation
    (Eigen's Isometry mode): [iso_inv]. *)
Definition q_T_from_parent (i : Z) (ab : body) : res (body * iso) :=
  bind (q_T_to_parent i ab) (fun '(ab, T) => Ok (ab, iso_inv T)).
(** articulated_body.h:329 *)
Definition T_from_parent_q (ab : body) (i : Z) (q : K) : res iso :=
  bind (T_to_parent_q ab i q) (fun T => Ok (iso_inv T)).
(** articulated_body.h:378 *)
Definition q_T_from_world (i : Z) (ab : body) : res (body * iso) :=
  bind (q_T_to_world i ab) (fun '(ab, T) => Ok (ab, iso_inv T)).
(** articulated_body.h:390-392 *)
Definition T_from_world_q (ab : body) (i : Z) (q : list K) : res iso :=
  bind (T_to_world_q ab i q) (fun T => Ok (iso_inv T)).

(** The robot is const in the overloads taking a configuration (e.g. spatial_dyn.cc:187). *)
Definition leaving {A} (ab : body) (r : res A) : res (body * A) := bind r (fun x => Ok (ab, x)).
(** spatial_dyn.cc:185-192.  [None] is Python's None, the default; arguments which are
    neither None nor numbers (arrays, below) are left out: the cast throws. *)
Definition py_T_to_parent (i : Z) (q : option K) (ab : body) : res (body * iso) :=
  match q with None => q_T_to_parent i ab | Some q => leaving ab (T_to_parent_q ab i q) end.
(** spatial_dyn.cc:193-200 *)
Definition py_T_from_parent (i : Z) (q : option K) (ab : body) : res (body * iso) :=
  match q with None => q_T_from_parent i ab | Some q => leaving ab (T_from_parent_q ab i q) end.
(** spatial_dyn.cc:201-210 *)
Definition py_T_to_world (i : Z) (q : option (list K)) (ab : body) : res (body * iso) :=
  match q with None => q_T_to_world i ab | Some q => leaving ab (T_to_world_q ab i q) end.
(** spatial_dyn.cc:211-220 *)
Definition py_T_from_world (i : Z) (q : option (list K)) (ab : body) : res (body * iso) :=
  match q with None => q_T_from_world i ab | Some q => leaving ab (T_from_world_q ab i q) end.

(** The loop of Map over the links (articulated_body.cc:235-237).  The function may throw,
    which ends the loop. *)
Fixpoint map_links (f : rigid_body -> res K) (l : list rigid_body) : res (list K) :=
  match l with
  | [] => Ok []
  | rb :: l => bind (f rb) (fun x => bind (map_links f l) (fun xs => Ok (x :: xs)))
  end.
(** articulated_body.cc:233-239.  The function is taken not to touch the robot. *)
Definition Map (f : rigid_body -> res K) (ab : body) : res (list K) :=
  map_links f (map (fun i => nth i (ab_rbs ab) rb_default) (seq 0 (ab_dof ab))).
End KinInv.
