(** Specifications: kinematics (C07-C09, C26, C42). *)
From Coq Require Import List Arith ZArith Bool.
From Verif Require Import Scalar Base Spatial SpecGeo Joint Body Kin Ops Specs.
Import ListNotations.

Section SpecKin.
Context {S : Scal}.

(** All fixed transforms are proper rigid transforms. *)
Definition rigid_robot (ab : body) : Prop :=
  rigid (ab_Tbase ab) /\ Forall (fun rb => rigid (rb_T rb)) (ab_rbs ab).
(** Every joint's motion subspace is that of its type (true of any joint made
    through the API, C25). *)
Definition proper_joints (ab : body) : Prop :=
  Forall (fun rb => jsub (rb_joint rb) = subspace_of (jtyp (rb_joint rb))) (ab_rbs ab).

(** [T] is the base placement times the link-to-parent transforms at
    configuration [q] along [path]. *)
Definition product_along (ab : body) (q : list K) (path : list nat) (T : iso) : Prop :=
  exists Ts, Forall2 (fun j t => T_to_parent_q ab (Z.of_nat j) (nth j q k0) = Ok t) path Ts /\
             T = fold_left iso_mul Ts (ab_Tbase ab).
End SpecKin.
