(** src/structs/joint.cc, include/spatial_dyn/structs/joint.h *)
From Coq Require Import List Bool String Ascii.
From Verif Require Import Scalar Base Spatial.
Import ListNotations.

Section Joint.
Context {S : Scal}.
Local Open Scope k_scope.

(** joint.h:38-46 *)
Inductive jtype := JUndef | JRx | JRy | JRz | JPx | JPy | JPz.

(** C++ == on the enumeration of joint.h:38-46 *)
Definition jtype_eqb (a b : jtype) : bool :=
  match a, b with
  | JUndef, JUndef | JRx, JRx | JRy, JRy | JRz, JRz
  | JPx, JPx | JPy, JPy | JPz, JPz => true
  | _, _ => false
  end.

(** A [double] used as a limit: the default limits are infinite
    (joint.h:216-219), which an exact scalar type need not contain. *)
Inductive bound := NInf | Fin (k : K) | PInf.

(** C++ [<] on limits.  [keq k k] is false exactly for a NaN (used by joint.cc:62-101). *)
Definition blt (a b : bound) : bool :=
  match a, b with
  | NInf, NInf => false
  | NInf, Fin k => keq k k
  | NInf, PInf => true
  | Fin k, NInf => false
  | Fin k, Fin l => klt k l
  | Fin k, PInf => keq k k
  | PInf, _ => false
  end.

(** joint.h:212-223 *)
Record joint := Jnt {
  jtyp : jtype;
  jsub : motion;      (* subspace_ *)
  jqmin : bound; jqmax : bound; jdqmax : bound; jfqmax : bound;
  jcoulomb : K; jviscous : K; jstiction : K
}.

(** joint.h:213-222, default member initialisers. *)
Definition joint_default : joint :=
  Jnt JUndef mzero NInf PInf PInf PInf 0 0 0.

(** spatial_motion_base.h:614-648, unit motions. *)
Definition subspace_of (t : jtype) : motion :=
  match t with
  | JRx => Mot v3zero (V3 1 0 0)
  | JRy => Mot v3zero (V3 0 1 0)
  | JRz => Mot v3zero (V3 0 0 1)
  | JPx => Mot (V3 1 0 0) v3zero
  | JPy => Mot (V3 0 1 0) v3zero
  | JPz => Mot (V3 0 0 1) v3zero
  | JUndef => mzero
  end.

(** joint.cc:29-53 *)
Definition set_type (t : jtype) (j : joint) : joint :=
  Jnt t (subspace_of t) (jqmin j) (jqmax j) (jdqmax j) (jfqmax j)
      (jcoulomb j) (jviscous j) (jstiction j).
(** joint.cc:21-23 *)
Definition joint_of (t : jtype) : joint := set_type t joint_default.

(** joint.cc:55-60 *)
Definition is_prismatic (j : joint) : bool :=
  match jtyp j with JPx | JPy | JPz => true | _ => false end.
(** joint.cc:58-60 *)
Definition is_revolute (j : joint) : bool :=
  match jtyp j with JRx | JRy | JRz => true | _ => false end.

(** joint.cc:62-68 *)
Definition set_q_min (x : bound) (j : joint) : mres joint unit :=
  if blt (jqmax j) x then Exn j
  else Ret (Jnt (jtyp j) (jsub j) x (jqmax j) (jdqmax j) (jfqmax j)
               (jcoulomb j) (jviscous j) (jstiction j)) tt.
(** joint.cc:70-76 *)
Definition set_q_max (x : bound) (j : joint) : mres joint unit :=
  if blt x (jqmin j) then Exn j
  else Ret (Jnt (jtyp j) (jsub j) (jqmin j) x (jdqmax j) (jfqmax j)
               (jcoulomb j) (jviscous j) (jstiction j)) tt.
(** joint.cc:78-85 *)
Definition set_q_limits (x y : bound) (j : joint) : mres joint unit :=
  if blt y x then Exn j
  else Ret (Jnt (jtyp j) (jsub j) x y (jdqmax j) (jfqmax j)
               (jcoulomb j) (jviscous j) (jstiction j)) tt.
(** joint.cc:87-93 *)
Definition set_dq_max (x : bound) (j : joint) : mres joint unit :=
  if blt x (Fin 0) then Exn j
  else Ret (Jnt (jtyp j) (jsub j) (jqmin j) (jqmax j) x (jfqmax j)
               (jcoulomb j) (jviscous j) (jstiction j)) tt.
(** joint.cc:95-101 *)
Definition set_fq_max (x : bound) (j : joint) : mres joint unit :=
  if blt x (Fin 0) then Exn j
  else Ret (Jnt (jtyp j) (jsub j) (jqmin j) (jqmax j) (jdqmax j) x
               (jcoulomb j) (jviscous j) (jstiction j)) tt.
(** joint.cc:103-109 *)
Definition set_f_coulomb (x : K) (j : joint) : mres joint unit :=
  if klt x 0 then Exn j
  else Ret (Jnt (jtyp j) (jsub j) (jqmin j) (jqmax j) (jdqmax j) (jfqmax j)
               x (jviscous j) (jstiction j)) tt.
(** joint.cc:111-117 *)
Definition set_f_viscous (x : K) (j : joint) : mres joint unit :=
  if klt x 0 then Exn j
  else Ret (Jnt (jtyp j) (jsub j) (jqmin j) (jqmax j) (jdqmax j) (jfqmax j)
               (jcoulomb j) x (jstiction j)) tt.
(** joint.cc:119-125 *)
Definition set_f_stiction (x : K) (j : joint) : mres joint unit :=
  if klt x 0 then Exn j
  else Ret (Jnt (jtyp j) (jsub j) (jqmin j) (jqmax j) (jdqmax j) (jfqmax j)
               (jcoulomb j) (jviscous j) x) tt.

(** Eigen AngleAxisd(q, axis) converted to a rotation matrix
    (AngleAxis::toRotationMatrix) (used by joint.cc:130-134). *)
Definition angle_axis (q : K) (ax : v3) : m3 :=
  let s := v3scale (ksin q) ax in
  let c := kcos q in
  let c1 := v3scale (1 - c) ax in
  let xy := vx c1 * vy ax in
  let xz := vx c1 * vz ax in
  let yz := vy c1 * vz ax in
  M3 (V3 (vx c1 * vx ax + c) (xy - vz s) (xz + vy s))
     (V3 (xy + vz s) (vy c1 * vy ax + c) (yz - vx s))
     (V3 (xz - vy s) (yz + vx s) (vz c1 * vz ax + c)).

(** Eigen::Vector3d::UnitX(), joint.cc:130 *)
Definition ex : v3 := V3 1 0 0.
(** Eigen::Vector3d::UnitY(), joint.cc:132 *)
Definition ey : v3 := V3 0 1 0.
(** Eigen::Vector3d::UnitZ(), joint.cc:134 *)
Definition ez : v3 := V3 0 0 1.

(** joint.cc:127-144 *)
Definition T_joint (j : joint) (q : K) : iso :=
  match jtyp j with
  | JRx => Iso (angle_axis q ex) v3zero
  | JRy => Iso (angle_axis q ey) v3zero
  | JRz => Iso (angle_axis q ez) v3zero
  | JPx => Iso m3id (v3scale q ex)
  | JPy => Iso m3id (v3scale q ey)
  | JPz => Iso m3id (v3scale q ez)
  | JUndef => iso_id
  end.

(** joint.cc:152-161, operator<< *)
Local Open Scope string_scope.
(** joint.cc:152-160 *)
Definition jtype_to_string (t : jtype) : string :=
  match t with
  | JRx => "rx" | JRy => "ry" | JRz => "rz"
  | JPx => "px" | JPy => "py" | JPz => "pz" | JUndef => "undefined"
  end.

(** [is >> str]: skip white space (the "C" locale's: space, \t, \n, \v, \f, \r), then read
    up to the next white space (used by joint.cc:165). *)
Definition is_space (c : ascii) : bool :=
  let n := nat_of_ascii c in Nat.eqb n 32 || (Nat.leb 9 n && Nat.leb n 13).
(** used by joint.cc:165 *)
Fixpoint word (s : string) : string :=
  match s with
  | EmptyString => EmptyString
  | String c t => if is_space c then EmptyString else String c (word t)
  end.
(** used by joint.cc:165 *)
Fixpoint token (s : string) : string :=
  match s with
  | EmptyString => EmptyString
  | String c t => if is_space c then token t else word s
  end.

(** std::tolower in the "C" locale (joint.cc:166). *)
Definition lower_ascii (c : ascii) : ascii :=
  let n := nat_of_ascii c in
  if (Nat.leb 65 n && Nat.leb n 90)%bool then ascii_of_nat (n + 32) else c.
(** joint.cc:166 *)
Fixpoint lower (s : string) : string :=
  match s with EmptyString => EmptyString | String c t => String (lower_ascii c) (lower t) end.

(** joint.cc:146-150 and 163-169, operator>> on one token; [.at] throws. *)
Definition jtype_of_string (s : string) : res jtype :=
  let l := lower s in
  if String.eqb l "rx" then Ok JRx else if String.eqb l "ry" then Ok JRy
  else if String.eqb l "rz" then Ok JRz else if String.eqb l "px" then Ok JPx
  else if String.eqb l "py" then Ok JPy else if String.eqb l "pz" then Ok JPz
  else if String.eqb l "undefined" then Ok JUndef else Throw.

End Joint.
