(** Specification: one transform undoes another (C71). *)
From Verif Require Import Scalar Spatial.

Section SpecKinInv.
Context {S : Scal}.
(** Taking any point through one transform and back through the other leaves it where it
    was, whichever comes first. *)
Definition undoes (F T : iso) : Prop := forall p, iso_app F (iso_app T p) = p /\ iso_app T (iso_app F p) = p.
End SpecKinInv.
