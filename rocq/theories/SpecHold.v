(** Specifications: robots that stay where they are (C58). *)
From Coq Require Import List Arith ZArith Bool Reals.
From Verif Require Import Scalar Base Spatial Joint Body Kin InvDyn FwdDyn Opspace OpspaceAba Deriv Sim Ops Control Instances Specs SpecCache SpecDyn SpecControl.
Import ListNotations.

Section SpecHold.
Context {S : Scal}.

(** A call made [n] times in a row, each on the robot the previous one left; what each
    returned. *)
Fixpoint repeated {A} (f : body -> res (body * A)) (n : nat) (ab : body) : res (body * list A) :=
  match n with
  | 0 => Ok (ab, [])
  | Datatypes.S n => bind (f ab) (fun '(ab, x) => bind (repeated f n ab) (fun '(ab, l) => Ok (ab, x :: l)))
  end.
(** The same for calls of Integrate, the time step, the method and the clipping chosen
    anew each time. *)
Fixpoint integrated solve aba tau fe o (steps : list (int_opts * K)) (ab : body) : res body :=
  match steps with
  | [] => Ok ab
  | (io, dt) :: steps => bind (integrate (sim_fd solve aba tau fe o) io dt ab) (integrated solve aba tau fe o steps)
  end.

Definition at_rest (ab : body) : Prop := forall i, i < ab_dof ab -> coef (ab_dq ab) i = k0.
(** No position is beyond its limits. *)
Definition in_limits (ab : body) : Prop := forall i, i < ab_dof ab ->
  let j := rb_joint (nth i (ab_rbs ab) rb_default) in
  blt (jqmax j) (Fin (coef (ab_q ab) i)) = false /\ blt (Fin (coef (ab_q ab) i)) (jqmin j) = false.
(** Everything but what is remembered is the same. *)
Definition unmoved (ab ab' : body) : Prop := exists c, ab' = set_cache ab (Some c).
(** The robot is at the goal of the task controller: with no velocity, its three parts
    ask for no acceleration. *)
Definition at_goal solve pinv (k : controller) (ab : body) : Prop :=
  (forall x, outcome (ask solve pinv (QPos (-1) (c_off k)) ab) = Ok (AV3 x) -> fst (c_pos k x [k0; k0; k0]) = [k0; k0; k0]) /\
  (forall R, outcome (ask solve pinv (QOri (-1)) ab) = Ok (AM3 R) -> fst (c_ori k R [k0; k0; k0]) = [k0; k0; k0]) /\
  c_joint k (ab_q ab) (ab_dq ab) = repeat k0 (ab_dof ab).
End SpecHold.
