(** C10 on points *)
From Coq Require Import List ZArith.
From Verif Require Import Scalar Spatial SpecGeo SpecPoint PointProofs Instances Samples.

(** A transformed motion moves the transformed point with the turned velocity; a transformed
    force has the turned moment about the transformed point. *)
Theorem C10_points : forall {S : Scal} {L : ScalLaws S} T m f p, rigid T ->
  velocity_at (mact T m) (iso_app T p) = m3mulv (rot T) (velocity_at m p) /\
  moment_about (fact T f) (iso_app T p) = m3mulv (rot T) (moment_about f p) /\ flin (fact T f) = m3mulv (rot T) (flin f).
Proof. exact @c10_points. Qed.
Print Assumptions C10_points.
(** The pairing of a motion with a force pushing at a point is the power of the push, and
    transforming moves and turns the push. *)
Theorem C10_push : forall {S : Scal} {L : ScalLaws S} T m f p, rigid T ->
  mdot m (push_at f p) = v3dot f (velocity_at m p) /\ fact T (push_at f p) = push_at (m3mulv (rot T) f) (iso_app T p).
Proof. exact @c10_push. Qed.
Print Assumptions C10_push.

(** A rigid transform which moves the point, and a motion which moves it. *)
Example C10_points_example : rigid q_iso /\
  v3eqb (iso_app q_iso (QV 1 2 3)) (QV 1 2 3) = false /\
  keq (vx (velocity_at (Mot (QV 1 0 0) (QV 0 0 1)) (QV 1 2 3))) (qz (-1)) = true.
Proof. split; [exact q_iso_rigid|]. split; vm_compute; reflexivity. Qed.
