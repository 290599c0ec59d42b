(** Specifications: dynamics (C05, C12-C18, C29). *)
From Coq Require Import List Arith ZArith Bool.
From Verif Require Import Scalar Base Spatial SpecGeo Joint Body Kin InvDyn FwdDyn Ops Specs SpecCache SpecKin.
From Coq Require Import Reals.
From Verif Require Instances.
Import ListNotations.

Section SpecDyn.
Context {S : Scal}.
Local Open Scope k_scope.

Definition total (l : list K) : K := fold_right kadd 0 l.

(** The rigid bodies moving with link [k]: the link itself and its load, if any. *)
Definition bodies_on (ab : body) (k : nat) : list inertia :=
  rb_inertia (nth k (ab_rbs ab) rb_default) ::
  match ab_loads ab (Z.of_nat k) with Some J => [J] | None => [] end.
(** Sum over all links and all bodies on them. *)
Definition over_links (ab : body) (f : nat -> K) : K := total (map f (seq 0 (ab_dof ab))).
Definition over_bodies (ab : body) (f : nat -> inertia -> K) : K :=
  over_links ab (fun k => total (map (f k) (bodies_on ab k))).

(** Rigid transforms, positive mass on every link (its own plus its load's),
    symmetric rotational inertias. *)
Record proper (ab : body) : Prop := {
  pr_rigid : rigid_robot ab;
  pr_mass : forall k, k < ab_dof ab -> klt 0 (total (map imass (bodies_on ab k))) = true;
  pr_sym : forall k, k < ab_dof ab -> Forall isym (bodies_on ab k)
}.

(** [J k off] is the Jacobian of the point [off] of link [k], [O k] the
    orientation of link [k], [P k off] the position of the point, all at the current
    configuration. *)
Definition jacobians (ab : body) (J : nat -> v3 -> list motion) : Prop :=
  forall k off, k < ab_dof ab -> Jacobian_q ab (ab_q ab) (Z.of_nat k) off = Ok (J k off).
Definition orientations (ab : body) (O : nat -> m3) : Prop :=
  forall k, k < ab_dof ab -> Orientation_q ab (ab_q ab) (Z.of_nat k) = Ok (O k).
Definition positions (ab : body) (P : nat -> v3 -> v3) : Prop :=
  forall k off, k < ab_dof ab -> Position_q ab (ab_q ab) (Z.of_nat k) off = Ok (P k off).

Definition col (J : list motion) (i : nat) : motion := nth i J mzero.
Definition entry (A : list (list K)) (i j : nat) : K := nth j (nth i A nil) 0.
Definition coef (v : list K) (i : nat) : K := nth i v 0.
Definition square (n : nat) (A : list (list K)) : Prop :=
  List.length A = n /\ Forall (fun r => List.length r = n) A.

(** Kinetic-energy pairing of two velocities [a], [b] of the centre of mass of a
    body with orientation [R]: m a.v b.v + a.w (R I R') b.w *)
Definition kinetic (R : m3) (B : inertia) (a b : motion) : K :=
  imass B * v3dot (mlin a) (mlin b) +
  v3dot (mang a) (m3mulv R (m3mulv (iI B) (m3mulv (m3tr R) (mang b)))).
(** Velocity of a point, from its Jacobian and joint velocities. *)
Definition velocity (J : list motion) (x : list K) : motion :=
  fold_right madd mzero (map (fun j => mscale (coef x j) (col J j)) (seq 0 (List.length J))).
(** x' A y *)
Definition quad (A : list (list K)) (x y : list K) : K :=
  total (map (fun i => coef x i * total (map (fun j => entry A i j * coef y j) (seq 0 (List.length x))))
             (seq 0 (List.length x))).

(** Power of a wrench [f] (moment about the world origin) on a point at [p] moving
    with [m]. *)
Definition power_at (p : v3) (f : force) (m : motion) : K :=
  v3dot (flin f) (mlin m) + v3dot (v3sub (fang f) (v3cross p (flin f))) (mang m).
(** (A x)_i *)
Definition row_times (n : nat) (A : list (list K)) (x : list K) (i : nat) : K :=
  total (map (fun j => entry A i j * coef x j) (seq 0 n)).
(** The linear solver returns a solution, for this matrix and every right-hand side. *)
Definition solver_ok (solve : list (list K) -> list K -> list K) (n : nat) (A : list (list K)) : Prop :=
  forall b, List.length b = n ->
    List.length (solve A b) = n /\ forall i, i < n -> row_times n A (solve A b) i = coef b i.
Definition injective (n : nat) (A : list (list K)) : Prop :=
  forall x, List.length x = n -> (forall i, i < n -> row_times n A x i = 0) -> forall i, i < n -> coef x i = 0.
(** The two equation-of-motion queries (C05). *)
Definition eom_query (q : query) : bool := match q with QID _ _ _ | QFD _ _ _ => true | _ => false end.

(** The robot with other links and loads, everything else the same. *)
Definition with_links (ab : body) (rbs : list rigid_body) (loads : Z -> option inertia) : body :=
  Body (ab_name ab) (ab_graphics ab) (ab_cache ab) (ab_dof ab) rbs (ab_q ab) (ab_dq ab) (ab_g ab)
       loads (ab_Tbase ab) (ab_Ibase ab) (ab_anc ab) (ab_sub ab).
(** Link [k] with its load made part of it. *)
Definition heavier (ab : body) (k : nat) : rigid_body :=
  let rb := nth k (ab_rbs ab) rb_default in
  Rb (rb_name rb) (rb_graphics rb) (rb_id rb) (rb_parent rb) (rb_T rb)
     (match ab_loads ab (Z.of_nat k) with None => rb_inertia rb | Some J => iadd (rb_inertia rb) J end)
     (rb_joint rb).
(** The robot without loads whose links include them. *)
Definition absorb (ab : body) : body :=
  with_links ab (map (heavier ab) (seq 0 (ab_dof ab))) (fun _ => None).
(** The public state but for the loads. *)
Definition same_but_loads (a b : body) : Prop :=
  ab_dof b = ab_dof a /\ ab_rbs b = ab_rbs a /\ ab_q b = ab_q a /\ ab_dq b = ab_dq a /\ ab_g b = ab_g a /\ ab_Tbase b = ab_Tbase a.
(** Every query but the operational-space functions of opspace_dynamics_aba.cc. *)
Definition sees_load (q : query) : bool :=
  match q with QaLinv _ _ | QaLambda _ _ _ | QaCC _ _ _ | QaGrav _ _ _ _ => false | _ => true end.

End SpecDyn.

(** Over the reals: no negative mass, positive semidefinite rotational inertia
    (about the centre of mass). *)
Definition massive (B : @inertia Instances.RScal) : Prop :=
  (0 <= imass B)%R /\ forall v, (0 <= v3dot v (m3mulv (iI B) v))%R.
(** Positive mass, positive definite rotational inertia. *)
Definition solid (B : @inertia Instances.RScal) : Prop :=
  (0 < imass B)%R /\ forall v, v <> v3zero -> (0 < v3dot v (m3mulv (iI B) v))%R.
