(** Specifications: freshness of query results (C03, C04, C06, C30). *)
From Coq Require Import List Arith ZArith Bool.
From Verif Require Import Scalar Base Spatial Joint Body Kin InvDyn FwdDyn Opspace OpspaceAba Deriv Sim Ops.
Import ListNotations.

Section SpecCache.
Context {S : Scal}.

(** The value a query returned, without the (invisible) new cache. *)
Definition outcome {A} (r : res (body * A)) : res A := bind r (fun '(_, x) => Ok x).

(** The base is not moved once the robot has been queried (or simulated). *)
Fixpoint base_fixed (asked : bool) (h : list op) : bool :=
  match h with
  | nil => true
  | OSetBase _ :: h => negb asked && base_fixed asked h
  | (OAsk _ | OIntegrate _ _ _ _ _ _) :: h => base_fixed true h
  | _ :: h => base_fixed asked h
  end.

(** T_to_parent, T_to_world, Position, Orientation, CartesianPose, AngularJacobian *)
Definition pose_query (q : query) : bool :=
  match q with QTp _ | QTw _ | QPos _ _ | QOri _ | QPose _ _ | QAng _ => true | _ => false end.
(** Jacobian, LinearJacobian, Hessian, with their offset argument. *)
Definition jacobian_query (q : query) : bool :=
  match q with QJac _ _ | QLin _ _ | QHess _ _ => true | _ => false end.
Definition with_offset (q : query) (off : v3) : query :=
  match q with QJac l _ => QJac l off | QLin l _ => QLin l off | QHess l _ => QHess l off | q => q end.
Definition offset_of (q : query) : v3 :=
  match q with QJac _ o | QLin _ o | QHess _ o => o | _ => v3zero end.
(** CentrifugalCoriolis, Gravity, ExternalTorques, Inertia, CompositeInertia,
    InertiaInverse *)
Definition dynamics_query (q : query) : bool :=
  match q with QCC | QGrav | QExt _ | QInertia | QComp _ | QAinv _ => true | _ => false end.
End SpecCache.

(** Commutative addition: the only law of arithmetic the freshness theorems use (it
    holds of IEEE doubles). *)
Class AddComm (S : Scal) : Prop := { kadd_comm : forall x y : K, kadd x y = kadd y x }.

(** Every observable but the inertia of the base agrees. *)
Definition same_but_base_inertia {S : Scal} (a b : body) : Prop :=
  ab_name a = ab_name b /\ ab_graphics a = ab_graphics b /\ ab_dof a = ab_dof b /\
  ab_rbs a = ab_rbs b /\ ab_q a = ab_q b /\ ab_dq a = ab_dq b /\ ab_g a = ab_g b /\
  (forall k, ab_loads a k = ab_loads b k) /\ ab_Tbase a = ab_Tbase b /\
  ab_anc a = ab_anc b /\ ab_sub a = ab_sub b.
(** Two robots that, after any common further history, look alike (base inertia
    apart) and answer every query alike. *)
Definition behave_alike {S : Scal} solve pinv (a b : body) : Prop :=
  same_but_base_inertia a b /\
  forall h, match run solve pinv h a, run solve pinv h b with
            | Some a', Some b' => same_but_base_inertia a' b' /\
                                  forall q, outcome (ask solve pinv q a') = outcome (ask solve pinv q b')
            | None, None => True
            | _, _ => False
            end.
(** T_to_world and everything computed from it alone. *)
Definition world_query {S : Scal} (q : query) : bool :=
  match q with QTw _ | QPos _ _ | QOri _ | QPose _ _ => true | _ => false end.
