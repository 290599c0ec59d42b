(** Specifications: the joint-space controller of the Python module (C52). *)
From Coq Require Import List Arith ZArith Bool Reals.
From Verif Require Import Scalar Base Spatial Joint Body Kin InvDyn FwdDyn Opspace OpspaceAba Deriv Sim Ops Control JointControl Specs SpecCache SpecDyn.
Import ListNotations.

Section SpecJs.
Context {S : Scal}.
Local Open Scope k_scope.
(** The acceleration asked for: towards [joint], or towards where the robot is. *)
Definition asked_acc (pd : list K -> list K -> list K -> list K * list K) (joint : option (list K)) (ab : body) : list K :=
  fst (pd (ab_q ab) (match joint with Some q => q | None => ab_q ab end) (ab_dq ab)).
Definition position_error (pd : list K -> list K -> list K -> list K * list K) (joint : option (list K)) (ab : body) : list K :=
  snd (pd (ab_q ab) (match joint with Some q => q | None => ab_q ab end) (ab_dq ab)).
(** The length of a vector. *)
Definition euclid (x : list K) : K := ksqrt (fold_left kadd (map (fun a => a * a) x) 0).
(** Both below their thresholds, if there are any. *)
Definition arrived (threshold : option (K * K)) (err dq : list K) : Prop :=
  match threshold with
  | None => True
  | Some (x, dx) => klt (euclid err) x = true /\ klt (euclid dq) dx = true
  end.
End SpecJs.
