(** 3-D and spatial (6-D) algebra, as provided by Eigen and by
    include/spatial_dyn/eigen/*.h. *)
From Verif Require Import Scalar.

Section Spatial.
Context {S : Scal}.
Local Open Scope k_scope.

(** Eigen::Vector3d *)
Record v3 := V3 { vx : K; vy : K; vz : K }.

(** Eigen::Vector3d::Zero(), e.g. articulated_body.cc:131 *)
Definition v3zero := V3 0 0 0.
(** Eigen operator+, e.g. spatial_inertia.h:211 *)
Definition v3add (a b : v3) := V3 (vx a + vx b) (vy a + vy b) (vz a + vz b).
(** Eigen operator-, e.g. spatial_motion_base.h:309 *)
Definition v3sub (a b : v3) := V3 (vx a - vx b) (vy a - vy b) (vz a - vz b).
(** Eigen unary operator-, in Transform::inverse() *)
Definition v3opp (a : v3) := V3 (- vx a) (- vy a) (- vz a).
(** Eigen scalar * vector, e.g. joint.cc:136 *)
Definition v3scale (k : K) (a : v3) := V3 (k * vx a) (k * vy a) (k * vz a).
(** vector / scalar (e.g. spatial_inertia.h:211). *)
Definition v3div (a : v3) (k : K) := V3 (vx a / k) (vy a / k) (vz a / k).
(** Eigen MatrixBase::dot and the rows of a matrix-vector product, e.g. spatial_motion_base.h:680-689 *)
Definition v3dot (a b : v3) := vx a * vx b + vy a * vy b + vz a * vz b.
(** Eigen MatrixBase::cross (e.g. spatial_motion_base.h:309). *)
Definition v3cross (a b : v3) :=
  V3 (vy a * vz b - vz a * vy b) (vz a * vx b - vx a * vz b) (vx a * vy b - vy a * vx b).
(** Eigen operator== on vectors: all coefficients [==] (e.g. forward_kinematics.cc:63). *)
Definition v3eqb (a b : v3) : bool :=
  keq (vx a) (vx b) && keq (vy a) (vy b) && keq (vz a) (vz b).

(** Eigen::Matrix3d, by rows *)
Record m3 := M3 { r0 : v3; r1 : v3; r2 : v3 }.
(** Eigen::Matrix3d::Zero(), e.g. spatial_inertia.h:161-174 *)
Definition m3zero := M3 v3zero v3zero v3zero.
(** Eigen::Matrix3d::Identity(), e.g. joint.cc:142 *)
Definition m3id := M3 (V3 1 0 0) (V3 0 1 0) (V3 0 0 1).
(** Eigen operator+, e.g. spatial_inertia.h:208-230 *)
Definition m3add (A B : m3) := M3 (v3add (r0 A) (r0 B)) (v3add (r1 A) (r1 B)) (v3add (r2 A) (r2 B)).
(** Eigen operator-, e.g. spatial_inertia.h:208-230 *)
Definition m3sub (A B : m3) := M3 (v3sub (r0 A) (r0 B)) (v3sub (r1 A) (r1 B)) (v3sub (r2 A) (r2 B)).
(** Eigen scalar * matrix, e.g. spatial_inertia.h:208-230 *)
Definition m3scale (k : K) (A : m3) := M3 (v3scale k (r0 A)) (v3scale k (r1 A)) (v3scale k (r2 A)).
(** Eigen transpose(), e.g. spatial_inertia.h:118-130 *)
Definition m3tr (A : m3) :=
  M3 (V3 (vx (r0 A)) (vx (r1 A)) (vx (r2 A)))
     (V3 (vy (r0 A)) (vy (r1 A)) (vy (r2 A)))
     (V3 (vz (r0 A)) (vz (r1 A)) (vz (r2 A))).
(** Eigen matrix * vector, e.g. spatial_motion_base.h:302-313 *)
Definition m3mulv (A : m3) (v : v3) := V3 (v3dot (r0 A) v) (v3dot (r1 A) v) (v3dot (r2 A) v).
(** Eigen matrix * matrix, e.g. spatial_inertia.h:118-130 *)
Definition m3mul (A B : m3) :=
  let Bt := m3tr B in
  M3 (m3mulv Bt (r0 A)) (m3mulv Bt (r1 A)) (m3mulv Bt (r2 A)).
(** outer product a b^T (e.g. forward_dynamics.cc:82). *)
Definition m3outer (a b : v3) := M3 (v3scale (vx a) b) (v3scale (vy a) b) (v3scale (vz a) b).
(** [M.rowwise().cross(t)]: every row r becomes r x t (spatial_inertia.h:143-159). *)
Definition m3rowcross (A : m3) (t : v3) := M3 (v3cross (r0 A) t) (v3cross (r1 A) t) (v3cross (r2 A) t).
(** [M.colwise().cross(t)]: every column c becomes c x t (spatial_inertia.h:143-159). *)
Definition m3colcross (A : m3) (t : v3) := m3tr (m3rowcross (m3tr A) t).

(** Eigen::Isometry3d: rotation part [linear()] and [translation()]. *)
Record iso := Iso { rot : m3; tra : v3 }.
(** Eigen::Isometry3d::Identity(), e.g. joint.cc:142 *)
Definition iso_id := Iso m3id v3zero.
(** Transform * Transform (Eigen) (e.g. articulated_body.cc:196-212). *)
Definition iso_mul (A B : iso) := Iso (m3mul (rot A) (rot B)) (v3add (m3mulv (rot A) (tra B)) (tra A)).
(** Transform<Isometry>::inverse() (Eigen): R^T, -(R^T t)
    (e.g. T_from_parent, articulated_body.h:317). *)
Definition iso_inv (A : iso) := Iso (m3tr (rot A)) (v3opp (m3mulv (m3tr (rot A)) (tra A))).
(** Transform * point (e.g. forward_kinematics.cc:16-30). *)
Definition iso_app (A : iso) (p : v3) := v3add (m3mulv (rot A) p) (tra A).

(** SpatialMotiond: linear() = rows 0-2, angular() = rows 3-5
    (spatial_motion_base.h:614-648). *)
Record motion := Mot { mlin : v3; mang : v3 }.
(** SpatialMotiond::Zero(), spatial_motion_base.h:614-648 *)
Definition mzero := Mot v3zero v3zero.
(** spatial_motion_base.h:352-356, 470-474 *)
Definition madd (a b : motion) := Mot (v3add (mlin a) (mlin b)) (v3add (mang a) (mang b)).
(** spatial_motion_base.h:345-349, 486-490 *)
Definition msub (a b : motion) := Mot (v3sub (mlin a) (mlin b)) (v3sub (mang a) (mang b)).
(** spatial_motion_base.h:316-320 *)
Definition mopp (a : motion) := Mot (v3opp (mlin a)) (v3opp (mang a)).
(** spatial_motion_base.h:370-374, 393-397 *)
Definition mscale (k : K) (a : motion) := Mot (v3scale k (mlin a)) (v3scale k (mang a)).

(** SpatialForced: same layout, different type (spatial_force_base.h). *)
Record force := Frc { flin : v3; fang : v3 }.
(** SpatialForced::Zero(), spatial_force_base.h *)
Definition fzero := Frc v3zero v3zero.
(** spatial_force_base.h:342-346 *)
Definition fadd (a b : force) := Frc (v3add (flin a) (flin b)) (v3add (fang a) (fang b)).
(** spatial_force_base.h:335-339 *)
Definition fsub (a b : force) := Frc (v3sub (flin a) (flin b)) (v3sub (fang a) (fang b)).
(** spatial_force_base.h:306-310 *)
Definition fopp (a : force) := Frc (v3opp (flin a)) (v3opp (fang a)).
(** spatial_force_base.h:360-364, 383-387 *)
Definition fscale (k : K) (a : force) := Frc (v3scale k (flin a)) (v3scale k (fang a)).

(** spatial_motion_base.h:302-313, operator*(Transform, SpatialMotion):
    bottom := R w; top := R v - (R w) x t. *)
Definition mact (T : iso) (m : motion) : motion :=
  let w := m3mulv (rot T) (mang m) in
  Mot (v3sub (m3mulv (rot T) (mlin m)) (v3cross w (tra T))) w.
(** spatial_force_base.h:292-303, operator*(Transform, SpatialForce):
    top := R f; bottom := R n - (R f) x t. *)
Definition fact (T : iso) (f : force) : force :=
  let l := m3mulv (rot T) (flin f) in
  Frc l (v3sub (m3mulv (rot T) (fang f)) (v3cross l (tra T))).
(** spatial_motion_base.h:293-300 and spatial_force_base.h:283-290, the
    Translation overloads. *)
Definition mact_tra (t : v3) (m : motion) : motion :=
  Mot (v3sub (mlin m) (v3cross (mang m) t)) (mang m).
(** spatial_force_base.h:283-290 *)
Definition fact_tra (t : v3) (f : force) : force :=
  Frc (flin f) (v3sub (fang f) (v3cross (flin f) t)).

(** spatial_motion_base.h:680-689, SpatialMotion::dot(SpatialForce): sum of the
    six coefficient products. *)
Definition mdot (m : motion) (f : force) : K := v3dot (mlin m) (flin f) + v3dot (mang m) (fang f).

(** spatial_motion_base.h:692-708, motion x motion, coefficient by coefficient. *)
Definition mcross (a b : motion) : motion :=
  let '(V3 a0 a1 a2) := mlin a in let '(V3 a3 a4 a5) := mang a in
  let '(V3 b0 b1 b2) := mlin b in let '(V3 b3 b4 b5) := mang b in
  Mot (V3 (a1 * b5 - a2 * b4 + a4 * b2 - a5 * b1)
          (a2 * b3 - a0 * b5 + a5 * b0 - a3 * b2)
          (a0 * b4 - a1 * b3 + a3 * b1 - a4 * b0))
      (V3 (a4 * b5 - a5 * b4) (a5 * b3 - a3 * b5) (a3 * b4 - a4 * b3)).

(** spatial_motion_base.h:710-726, motion x force. *)
Definition fcross (a : motion) (b : force) : force :=
  let '(V3 a0 a1 a2) := mlin a in let '(V3 a3 a4 a5) := mang a in
  let '(V3 b0 b1 b2) := flin b in let '(V3 b3 b4 b5) := fang b in
  Frc (V3 (a4 * b2 - a5 * b1) (a5 * b0 - a3 * b2) (a3 * b1 - a4 * b0))
      (V3 (a1 * b2 - a2 * b1 + a4 * b5 - a5 * b4)
          (a2 * b0 - a0 * b2 + a5 * b3 - a3 * b5)
          (a0 * b1 - a1 * b0 + a3 * b4 - a4 * b3)).

(** SpatialInertiad: mass, com, I_com (spatial_inertia.h). *)
Record inertia := Inr { imass : K; icom : v3; iI : m3 }.

(** spatial_inertia.h:161-174, constructor from {xx,yy,zz,xy,xz,yz}. *)
Definition inertia_flat (m : K) (c : v3) (xx yy zz xy xz yz : K) : inertia :=
  Inr m c (M3 (V3 xx xy xz) (V3 xy yy yz) (V3 xz yz zz)).
(** spatial_inertia.h:263-268, I_com_flat(). *)
Definition I_com_flat (I : inertia) : K * K * K * K * K * K :=
  (vx (r0 (iI I)), vy (r1 (iI I)), vz (r2 (iI I)),
   vy (r0 (iI I)), vz (r0 (iI I)), vz (r1 (iI I))).

(** spatial_inertia.h:118-130, operator*(Transform, SpatialInertia). *)
Definition iact (T : iso) (I : inertia) : inertia :=
  Inr (imass I) (iso_app T (icom I)) (m3mul (m3mul (rot T) (iI I)) (m3tr (rot T))).
(** spatial_inertia.h:106-116, Translation overload. *)
Definition iact_tra (t : v3) (I : inertia) : inertia :=
  Inr (imass I) (v3add t (icom I)) (iI I).

(** spatial_inertia.h:194-206, SpatialInertia * SpatialMotion. *)
Definition imul (I : inertia) (m : motion) : force :=
  let mc := v3scale (imass I) (icom I) in
  Frc (v3add (v3scale (imass I) (mlin m)) (v3cross (mang m) mc))
      (v3sub (v3sub (m3mulv (iI I) (mang m)) (v3cross (mlin m) mc))
             (v3cross (v3cross (mang m) (icom I)) mc)).

(** ctrl_utils::DoubleCrossMatrix(x) = [x]x [x]x (external, by its meaning)
    (used by spatial_inertia.h:208-230). *)
Definition double_cross (x : v3) : m3 :=
  let '(V3 a b c) := x in
  M3 (V3 (- (b * b) - c * c) (a * b) (a * c))
     (V3 (a * b) (- (a * a) - c * c) (b * c))
     (V3 (a * c) (b * c) (- (a * a) - b * b)).

(** spatial_inertia.h:208-230, operator+= and operator+ (same formulas). *)
Definition iadd (I J : inertia) : inertia :=
  let com := v3div (v3add (v3scale (imass I) (icom I)) (v3scale (imass J) (icom J)))
                   (imass I + imass J) in
  Inr (imass I + imass J) com
      (m3sub (m3sub (m3add (iI I) (iI J))
                    (m3scale (imass I) (double_cross (v3sub com (icom I)))))
             (m3scale (imass J) (double_cross (v3sub com (icom J))))).

(** SpatialInertiaMatrixd: 6x6 in 3x3 blocks, rows/columns (linear, angular). *)
Record i6 := I6 { b11 : m3; b12 : m3; b21 : m3; b22 : m3 }.

(** Eigen operator+= on the 6x6 matrix, e.g. forward_dynamics.cc:83 *)
Definition i6add (A B : i6) := I6 (m3add (b11 A) (b11 B)) (m3add (b12 A) (b12 B))
                                  (m3add (b21 A) (b21 B)) (m3add (b22 A) (b22 B)).
(** Eigen operator-= on the 6x6 matrix, e.g. forward_dynamics.cc:82 *)
Definition i6sub (A B : i6) := I6 (m3sub (b11 A) (b11 B)) (m3sub (b12 A) (b12 B))
                                  (m3sub (b21 A) (b21 B)) (m3sub (b22 A) (b22 B)).
(** spatial_inertia.h:242-261 matrix() and 270-290 SpatialInertiaMatrix(I). *)
Definition i6_of (I : inertia) : i6 :=
  let m := imass I in
  let '(V3 cx cy cz) := icom I in
  let mcx := m * cx in let mcy := m * cy in let mcz := m * cz in
  let Ixx := vx (r0 (iI I)) + m * (cy * cy + cz * cz) in
  let Iyy := vy (r1 (iI I)) + m * (cx * cx + cz * cz) in
  let Izz := vz (r2 (iI I)) + m * (cx * cx + cy * cy) in
  let Ixy := vy (r0 (iI I)) - m * cx * cy in
  let Ixz := vz (r0 (iI I)) - m * cx * cz in
  let Iyz := vz (r1 (iI I)) - m * cy * cz in
  I6 (M3 (V3 m 0 0) (V3 0 m 0) (V3 0 0 m))
     (M3 (V3 0 mcz (- mcy)) (V3 (- mcz) 0 mcx) (V3 mcy (- mcx) 0))
     (M3 (V3 0 (- mcz) mcy) (V3 mcz 0 (- mcx)) (V3 (- mcy) mcx 0))
     (M3 (V3 Ixx Ixy Ixz) (V3 Ixy Iyy Iyz) (V3 Ixz Iyz Izz)).
(** spatial_inertia.h:292-297, 6x6 * motion, read as a force. *)
Definition i6mul (A : i6) (m : motion) : force :=
  Frc (v3add (m3mulv (b11 A) (mlin m)) (m3mulv (b12 A) (mang m)))
      (v3add (m3mulv (b21 A) (mlin m)) (m3mulv (b22 A) (mang m))).
(** (h / d) h^T as a 6x6 matrix: [aba.h[i].matrix() / aba.d[i] * aba.h[i].transpose()]
    (forward_dynamics.cc:82). *)
Definition i6outer (h : force) (d : K) : i6 :=
  let l := v3div (flin h) d in let a := v3div (fang h) d in
  I6 (m3outer l (flin h)) (m3outer l (fang h)) (m3outer a (flin h)) (m3outer a (fang h)).
(** spatial_inertia.h:143-159, operator*(Transform, SpatialInertiaMatrix):
    left columns times R^T; right columns times R^T minus rowwise cross of the
    new left columns; then R times top rows; R times bottom rows minus
    columnwise cross of the new top rows. *)
Definition i6act (T : iso) (A : i6) : i6 :=
  let R := rot T in let Rt := m3tr R in let t := tra T in
  let l1 := m3mul (b11 A) Rt in let l2 := m3mul (b21 A) Rt in
  let q1 := m3sub (m3mul (b12 A) Rt) (m3rowcross l1 t) in
  let q2 := m3sub (m3mul (b22 A) Rt) (m3rowcross l2 t) in
  let t1 := m3mul R l1 in let t2 := m3mul R q1 in
  I6 t1 t2
     (m3sub (m3mul R l2) (m3colcross t1 t))
     (m3sub (m3mul R q2) (m3colcross t2 t)).

End Spatial.
