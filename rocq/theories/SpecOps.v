(** Specifications: operational space (C36-C39). *)
From Coq Require Import List Arith ZArith Bool Reals.
From Verif Require Import Scalar Base Spatial Joint Body Kin InvDyn FwdDyn Opspace OpspaceAba Deriv Sim Ops Specs SpecCache SpecDyn.
Import ListNotations.

Section SpecOps.
Context {S : Scal}.
Local Open Scope k_scope.

(** The threshold with which a query uses the dynamically consistent inverse, if it
    does; opspace::CentrifugalCoriolis inside opspace::InverseDynamics uses 0. *)
Definition thresholds (q : query) : list K :=
  match q with
  | QoJbar _ e | QoCC _ _ e | QoGrav _ e | QoExt _ _ e | QoFric _ _ e _ => [e]
  | QoID _ _ _ _ _ o => p_svd o :: if p_cc o then [0] else []
  | _ => []
  end.
(** Every such query of the history uses the threshold [e]. *)
Definition one_threshold (e : K) (h : list op) : Prop :=
  forall q x, In (OAsk q) h -> In x (thresholds q) -> x = e.
(** Queries answered from the operational-space cache. *)
Definition task_query (q : query) : bool :=
  match q with
  | QoLinv _ | QoLambda _ _ | QoSing _ _ | QoJbar _ _ | QoCC _ _ _ | QoGrav _ _ | QoExt _ _ _ | QoFric _ _ _ _ | QoID _ _ _ _ _ _ => true
  | _ => false
  end.

(** Matrices: [r] rows of [c] entries. *)
Definition sized (r c : nat) (A : list (list K)) : Prop := List.length A = r /\ Forall (fun row => List.length row = c) A.
(** (A B)_ij, over the inner dimension [n]. *)
Definition prod_at (n : nat) (A B : list (list K)) (i j : nat) : K :=
  total (map (fun k => entry A i k * entry B k j) (seq 0 n)).
Definition delta (i j : nat) : K := if Nat.eqb i j then 1 else 0.
(** [B] is the two-sided inverse of the [m] x [m] matrix [A]. *)
Definition inverse_of (m : nat) (A B : list (list K)) : Prop :=
  forall i j, i < m -> j < m -> prod_at m A B i j = delta i j /\ prod_at m B A i j = delta i j.

(** A prioritised task list, as a user of opspace::InverseDynamics runs it: the
    nullspace matrix starts empty, is passed from each task to the next, and the
    torques are added up. *)
Record task := Task { t_J : list (list K); t_ddx : list K; t_fe : fmap; t_fe_empty : bool; t_o : ops_opts }.
Fixpoint control solve pinv (tasks : list task) (N : list (list K)) (tau : list K) (ab : body) : option (body * list K) :=
  match tasks with
  | nil => Some (ab, tau)
  | t :: rest =>
    match ask solve pinv (QoID (t_J t) (t_ddx t) (Some N) (t_fe t) (t_fe_empty t) (t_o t)) ab with
    | Ok (ab', ANull (Some N') tau') =>
      control solve pinv rest N' (map (fun k => coef tau k + coef tau' k) (seq 0 (ab_dof ab))) ab'
    | _ => None
    end
  end.
(** The options with Coriolis compensation off. *)
Definition no_cc (o : ops_opts) : ops_opts := OpsOpts (p_grav o) false (p_fric o) (p_svd o) (p_stic o) (p_facc o).
End SpecOps.
(** Over the reals: the squared Euclidean norm. *)
Definition sqsum (x : list R) : R := fold_right (fun a s => (a * a + s)%R) 0%R x.
