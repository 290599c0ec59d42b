(** Specifications: geometry (C10, C11, C26).  Used only to state properties. *)
From Verif Require Import Scalar Spatial.

Section SpecGeometry.
Context {S : Scal}.
Local Open Scope k_scope.
Definition m3det (A : m3) : K := v3dot (r0 A) (v3cross (r1 A) (r2 A)).
(** Proper rotation: orthogonal with determinant 1. *)
Definition is_rot (R : m3) : Prop := m3mul R (m3tr R) = m3id /\ m3det R = 1.
(** Proper rigid transform. *)
Definition rigid (T : iso) : Prop := is_rot (rot T).
Definition m3sym (A : m3) : Prop := m3tr A = A.
(** Symmetric rotational inertia. *)
Definition isym (I : inertia) : Prop := m3sym (iI I).
(** Symmetric 6x6 matrix, by blocks. *)
Definition i6sym (A : i6) : Prop :=
  m3tr (b11 A) = b11 A /\ m3tr (b22 A) = b22 A /\ b21 A = m3tr (b12 A).
(** The momentum of a body with velocity [m] at the origin of its frame: the
    centre of mass moves with v + w x c. *)
Definition momentum (I : inertia) (m : motion) : force :=
  let p := v3scale (imass I) (v3add (mlin m) (v3cross (mang m) (icom I))) in
  Frc p (v3add (m3mulv (iI I) (mang m)) (v3cross (icom I) p)).
End SpecGeometry.
