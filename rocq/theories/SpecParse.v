(** Specifications: JSON, YAML and pickling (C32, C33). *)
From Coq Require Import List Arith ZArith Bool String.
From Verif Require Import Scalar Base Spatial SpecGeo Joint Body Json.
Import ListNotations.

Section SpecParse.
Context {S : Scal}.
Local Open Scope k_scope.

(** The fields of a geometry that matter for its type; the others at their defaults
    (unit scale, zero radius and length, no mesh). *)
Definition relevant (g : geometry) : geometry :=
  match gty g with
  | GBox => Geo GBox (gscale g) 0 0 ""
  | GCapsule => Geo GCapsule (V3 1 1 1) (gradius g) (glength g) ""
  | GCylinder => Geo GCylinder (V3 1 1 1) (gradius g) (glength g) ""
  | GSphere => Geo GSphere (V3 1 1 1) (gradius g) 0 ""
  | GMesh => Geo GMesh (gscale g) 0 0 (gmesh g)
  | GUndef => Geo GUndef (V3 1 1 1) 0 0 ""
  end.
(** [near T] is what reading back the placement [T] gives ([T] itself, if ctrl_utils'
    conversion is exact). *)
Variable near : iso -> iso.
(** The same picture. *)
Definition same_picture (a b : graphics) : Prop :=
  gname b = gname a /\ gT b = near (gT a) /\ gmat b = gmat a /\ ggeo b = relevant (ggeo a).
(** The same link: name, id, placement, inertia, joint and pictures; [parent] as given. *)
Definition same_link (parent : Z -> Z) (a b : rigid_body) : Prop :=
  rb_name b = rb_name a /\ rb_id b = rb_id a /\ rb_parent b = parent (rb_parent a) /\
  rb_T b = near (rb_T a) /\ rb_inertia b = rb_inertia a /\ rb_joint b = rb_joint a /\
  Forall2 same_picture (rb_graphics a) (rb_graphics b).

(** [b] is a robot with the description of [a], its links attached as [parent] says, at
    rest in the zero configuration, unloaded, under standard gravity. *)
Record redescribed (parent : Z -> Z) (a b : body) : Prop := {
  d_name : ab_name b = ab_name a;
  d_graphics : Forall2 same_picture (ab_graphics a) (ab_graphics b);
  d_dof : ab_dof b = ab_dof a;
  d_base : ab_Tbase b = near (ab_Tbase a);
  d_links : Forall2 (same_link parent) (ab_rbs a) (ab_rbs b);
  d_q : ab_q b = repeat 0 (ab_dof a);
  d_dq : ab_dq b = repeat 0 (ab_dof a);
  d_g : mlin (ab_g b) = V3 (klit (-981) 100 * 0) (klit (-981) 100 * 0) (klit (-981) 100 * 1);
  d_loads : forall i, ab_loads b i = None
}.
(** ... and the same tree. *)
Definition same_tree (a b : body) : Prop := ab_anc b = ab_anc a /\ ab_sub b = ab_sub a.

(** A joint whose setters would accept its own values. *)
Record joint_ok (j : joint) : Prop := {
  jo_q : blt (jqmax j) (jqmin j) = false;
  jo_dq : blt (jdqmax j) (Fin 0) = false;
  jo_fq : blt (jfqmax j) (Fin 0) = false;
  jo_coulomb : klt (jcoulomb j) 0 = false;
  jo_viscous : klt (jviscous j) 0 = false;
  jo_stiction : klt (jstiction j) 0 = false;
  jo_axis : jsub j = subspace_of (jtyp j)
}.
Definition inertia_ok (I : inertia) : Prop := klt (imass I) 0 = false /\ isym I.

(** Everything placed by a robot's description. *)
Definition placements (ab : body) : list iso :=
  ab_Tbase ab :: map gT (ab_graphics ab) ++
  flat_map (fun r => rb_T r :: map gT (rb_graphics r)) (ab_rbs ab).
Record storable (ab : body) : Prop := {
  st_base : inertia_ok (ab_Ibase ab);
  st_inertia : Forall (fun r => inertia_ok (rb_inertia r)) (ab_rbs ab);
  st_joint : Forall (fun r => joint_ok (rb_joint r)) (ab_rbs ab)
}.

(** The numbers and strings of a description. *)
Definition v3_in (P : K -> Prop) (x : v3) : Prop := P (vx x) /\ P (vy x) /\ P (vz x).
Definition inertia_in (P : K -> Prop) (I : inertia) : Prop :=
  P (imass I) /\ v3_in P (icom I) /\ v3_in P (r0 (iI I)) /\ v3_in P (r1 (iI I)) /\ v3_in P (r2 (iI I)).
Definition picture_in (P : K -> Prop) (Q : string -> Prop) (g : graphics) : Prop :=
  Q (gname g) /\ Q (mname (gmat g)) /\ Q (mtexture (gmat g)) /\ Q (gmesh (ggeo g)) /\
  v3_in P (mrgb (gmat g)) /\ P (malpha (gmat g)) /\
  v3_in P (gscale (ggeo g)) /\ P (gradius (ggeo g)) /\ P (glength (ggeo g)).
(** All but the joint limits. *)
Definition link_in (P : K -> Prop) (Q : string -> Prop) (r : rigid_body) : Prop :=
  Q (rb_name r) /\ Forall (picture_in P Q) (rb_graphics r) /\ inertia_in P (rb_inertia r) /\
  P (jcoulomb (rb_joint r)) /\ P (jviscous (rb_joint r)) /\ P (jstiction (rb_joint r)).
Definition robot_in (P : K -> Prop) (Q : string -> Prop) (ab : body) : Prop :=
  Q (ab_name ab) /\ Forall (picture_in P Q) (ab_graphics ab) /\ inertia_in P (ab_Ibase ab) /\
  Forall (link_in P Q) (ab_rbs ab).
Definition bound_in (P : K -> Prop) (b : bound) : Prop :=
  match b with Fin k => P k | _ => False end.
Definition limits_in (P : K -> Prop) (j : joint) : Prop :=
  bound_in P (jqmin j) /\ bound_in P (jqmax j) /\ bound_in P (jdqmax j) /\ bound_in P (jfqmax j).
Definition infinite (b : bound) : Prop := b = NInf \/ b = PInf.
Definition unlimited (j : joint) : Prop :=
  infinite (jqmin j) \/ infinite (jqmax j) \/ infinite (jdqmax j) \/ infinite (jfqmax j).

(** The strings the library itself writes. *)
Definition own_strings : list string :=
  ["name"; "graphics"; "T_base_to_world"; "inertia_base"; "rigid_bodies"; "id"; "id_parent";
   "T_to_parent"; "inertia"; "joint"; "type"; "q_min"; "q_max"; "dq_max"; "fq_max"; "f_coulomb";
   "f_viscous"; "f_stiction"; "mass"; "com"; "I_com_flat"; "geometry"; "material"; "scale"; "radius";
   "length"; "mesh"; "rgba"; "texture"; "rx"; "ry"; "rz"; "px"; "py"; "pz"; "undefined"; "box";
   "capsule"; "cylinder"; "sphere"]%string.

End SpecParse.
