(** Specification: which calls may change what is seen through a reference (C57). *)
From Coq Require Import List Arith ZArith Bool.
From Verif Require Import Scalar Base Spatial Joint Body Ops Refs.
Import ListNotations.

Section SpecRefs.
Context {S : Scal}.

(** Jacobian, LinearJacobian, AngularJacobian and Hessian work in one shared matrix. *)
Definition uses_jacobian (q : query) : bool :=
  match q with QJac _ _ | QLin _ _ | QAng _ | QHess _ _ => true | _ => false end.
(** So do the operational space functions given a Jacobian, ... *)
Definition uses_opspace (q : query) : bool :=
  match q with
  | QoLinv _ | QoLambda _ _ | QoJbar _ _ | QoSing _ _ | QoCC _ _ _ | QoGrav _ _ | QoExt _ _ _
  | QoFric _ _ _ _ | QoID _ _ _ _ _ _ => true
  | _ => false
  end.
(** ... and those of the articulated-body family. *)
Definition uses_opspace_aba (q : query) : bool :=
  match q with QaLinv _ _ | QaLambda _ _ _ | QaCC _ _ _ | QaGrav _ _ _ _ => true | _ => false end.

(** The only queries that may overwrite what a reference shows. *)
Definition may_overwrite (q : query) (r : ref) : bool :=
  match r with
  | RJac | RLin | RAng => uses_jacobian q
  | RoLinv | RoLambda | RoJbar => uses_opspace q
  | RaLinv | RaLambda => uses_opspace_aba q
  | _ => false
  end.

(** Calls that change the robot and compute nothing (adding a link resizes the
    storage references point into, and is left out). *)
Definition setter (o : op) : bool :=
  match o with
  | OSetQ _ | OSetDq _ | OSetG _ | OAddLoad _ _ | OReplaceLoad _ _ | OClearLoad _ | OSetBase _ | OSetIbase _ => true
  | _ => false
  end.
End SpecRefs.
