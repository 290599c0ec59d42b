(** Specifications for IEEE arithmetic (C43) *)
From Coq Require Import List Arith ZArith Bool SpecFloat.
From Verif Require Import Scalar Base Spatial Joint Body Instances.
Import ListNotations.

Section SpecNan.
Variables (sn cs : f64 -> f64) (tr : f64 -> Z).
Notation F := (F64of sn cs tr).

(** Not a number. *)
Definition nan : @K F := S754_nan.
Definition nan_vec : @v3 F := V3 nan nan nan.
Definition nan_mat : @m3 F := M3 nan_vec nan_vec nan_vec.
(** [m == 0] *)
Definition no_mass (I : @inertia F) : Prop := @keq F (imass I) (@k0 F) = true.
(** A link of mass zero that carries nothing. *)
Definition weightless (ab : @body F) (k : nat) : Prop :=
  no_mass (rb_inertia (rb_at ab k)) /\ ab_loads ab (Z.of_nat k) = None.
End SpecNan.
