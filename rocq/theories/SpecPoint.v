(** What a spatial motion and a spatial force say about a point. *)
From Verif Require Import Scalar Spatial.
Section SpecPoint.
Context {S : Scal}.
Local Open Scope k_scope.
(** The velocity of the point [p] of a body moving with [m]. *)
Definition velocity_at (m : motion) (p : v3) : v3 := v3add (mlin m) (v3cross (mang m) p).
(** The moment of [f] about the point [p]. *)
Definition moment_about (f : force) (p : v3) : v3 := v3sub (fang f) (v3cross p (flin f)).
(** The force [f] pushing at the point [p]. *)
Definition push_at (f p : v3) : force := Frc f (v3cross p f).
End SpecPoint.
