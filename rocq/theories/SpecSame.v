(** Specifications: the same machine described differently (C61). *)
From Coq Require Import List Arith ZArith Bool.
From Verif Require Import Scalar Base Spatial SpecGeo Joint Body Kin InvDyn Specs SpecDyn.
Import ListNotations.

Section SpecSame.
Context {S : Scal}.
Local Open Scope k_scope.
(** The body with all masses multiplied by [c]. *)
Definition times (c : K) (B : inertia) : inertia := Inr (c * imass B) (icom B) (m3scale c (iI B)).
(** [b] is [a] with link [k] renumbered [s k], the base (and gravity) moved by [X], all
    masses multiplied by [c], and at the velocities of [a] multiplied by [w] (gravity by
    [w * w]). *)
Record same_machine (s : nat -> nat) (X : iso) (c w : K) (a b : body) : Prop := {
  sm_dof : ab_dof b = ab_dof a;
  sm_range : forall k, (k < ab_dof a)%nat -> (s k < ab_dof a)%nat;
  sm_distinct : forall j k, (j < ab_dof a)%nat -> (k < ab_dof a)%nat -> s j = s k -> j = k;
  sm_frame : forall k, (k < ab_dof a)%nat ->
    rb_T (nth (s k) (ab_rbs b) rb_default) = rb_T (nth k (ab_rbs a) rb_default);
  sm_joint : forall k, (k < ab_dof a)%nat ->
    rb_joint (nth (s k) (ab_rbs b) rb_default) = rb_joint (nth k (ab_rbs a) rb_default);
  sm_parent : forall k, (k < ab_dof a)%nat ->
    rb_parent (nth (s k) (ab_rbs b) rb_default) =
    if (rb_parent (nth k (ab_rbs a) rb_default) <? 0)%Z then rb_parent (nth k (ab_rbs a) rb_default)
    else Z.of_nat (s (Z.to_nat (rb_parent (nth k (ab_rbs a) rb_default))));
  sm_mass : forall k, (k < ab_dof a)%nat ->
    rb_inertia (nth (s k) (ab_rbs b) rb_default) = times c (rb_inertia (nth k (ab_rbs a) rb_default));
  sm_load : forall k, (k < ab_dof a)%nat -> ab_loads b (Z.of_nat (s k)) = option_map (times c) (ab_loads a (Z.of_nat k));
  sm_q : forall k, (k < ab_dof a)%nat -> coef (ab_q b) (s k) = coef (ab_q a) k;
  sm_dq : forall k, (k < ab_dof a)%nat -> coef (ab_dq b) (s k) = w * coef (ab_dq a) k;
  sm_g : mlin (ab_g b) = v3scale (w * w) (m3mulv (rot X) (mlin (ab_g a)));
  sm_base : ab_Tbase b = iso_mul X (ab_Tbase a)
}.
(** [y] is [x], a vector over [n] joints, renumbered and multiplied by [z]. *)
Definition carried (s : nat -> nat) (z : K) (n : nat) (x y : list K) : Prop :=
  List.length x = n /\ List.length y = n /\ forall k, (k < n)%nat -> coef y (s k) = z * coef x k.
(** The same of external forces, which are in world coordinates. *)
Definition carried_forces (s : nat -> nat) (X : iso) (z : K) (n : nat) (fe fe' : fmap) : Prop :=
  forall k, (k < n)%nat -> fe' (s k) = option_map (fun f => fscale z (fact X f)) (fe k).
(** A velocity, seen after turning the world. *)
Definition turned (X : iso) (m : motion) : motion := Mot (m3mulv (rot X) (mlin m)) (m3mulv (rot X) (mang m)).
End SpecSame.
