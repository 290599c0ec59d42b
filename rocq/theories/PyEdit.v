(** Editing the links of a robot in place from Python.

    [ab.rigid_bodies] (src/python/spatial_dyn.cc:156-159) turns the vector of links
    into a list whose elements are references into the robot (pybind11: a property
    getter uses reference_internal, and stl.h casts each element with that policy).
    Assigning to an attribute of such an element, of its joint or of its inertia
    writes into the robot, and touches nothing else of it.

    Simplified: fetching the element and writing to it are one step; references
    kept in variables are in PyKeep.v. *)
From Coq Require Import List Arith ZArith Bool String.
From Verif Require Import Scalar Base Spatial Joint Body Ops.
Import ListNotations.

Section PyEdit.
Context {S : Scal}.
Local Open Scope k_scope.
Variable solve : list (list K) -> list K -> list K.
Variable pinv : list (list K) -> K -> list (list K) * bool.

(** One assignment, src/python/spatial_dyn.cc:240-279 and 504-510. *)
Inductive link_edit :=
| EName (s : string) | EGraphics (gs : list graphics)          (* 241-242 *)
| EFrame (T : iso)                                             (* rb.T_to_parent = T, 245-247 *)
| EInertia (I : inertia)                                       (* rb.inertia = I, 248-250 *)
| EMass (m : K) | ECom (c : v3) | EIcom (I : m3)               (* rb.inertia.mass = m ..., 508-510 *)
| EJoint (j : joint)                                           (* rb.joint = j, 251 *)
| EType (s : string)                                           (* rb.joint.type = s, 262-267 *)
| EQmin (x : bound) | EQmax (x : bound) | ELimits (x y : bound)(* 271-273 *)
| EDqmax (x : bound) | EFqmax (x : bound)                      (* 274-275 *)
| ECoulomb (x : K) | EViscous (x : K) | EStiction (x : K).     (* 276-278 *)

(** rigid_body.h:136, set_joint *)
Definition rb_set_joint (j : joint) (rb : rigid_body) : rigid_body :=
  Rb (rb_name rb) (rb_graphics rb) (rb_id rb) (rb_parent rb) (rb_T rb) (rb_inertia rb) j.
(** the C++ reference to the joint inside a link: rigid_body.h:129 through
    src/python/spatial_dyn.cc:251 *)
Definition on_joint (f : joint -> mres joint unit) (rb : rigid_body) : mres rigid_body unit :=
  match f (rb_joint rb) with
  | Ret j _ => Ret (rb_set_joint j rb) tt
  | Exn j => Exn (rb_set_joint j rb)
  | Bad => Bad
  end.
(** writing a field of the inertia inside a link: no check is made
    (src/python/spatial_dyn.cc:508-510, rigid_body.h:105) *)
Definition on_inertia (f : inertia -> inertia) (rb : rigid_body) : mres rigid_body unit :=
  Ret (Rb (rb_name rb) (rb_graphics rb) (rb_id rb) (rb_parent rb) (rb_T rb) (f (rb_inertia rb)) (rb_joint rb)) tt.

(** rigid_body.h:60-68, 98, rigid_body.cc:24-29, joint.cc:29-125; the type string
    goes through operator>> (joint.cc:163-185), which throws on an unknown name *)
Definition edit_rb (e : link_edit) (rb : rigid_body) : mres rigid_body unit :=
  match e with
  | EName s => Ret (Rb s (rb_graphics rb) (rb_id rb) (rb_parent rb) (rb_T rb) (rb_inertia rb) (rb_joint rb)) tt
  | EGraphics gs => Ret (Rb (rb_name rb) gs (rb_id rb) (rb_parent rb) (rb_T rb) (rb_inertia rb) (rb_joint rb)) tt
  | EFrame T => Ret (Rb (rb_name rb) (rb_graphics rb) (rb_id rb) (rb_parent rb) T (rb_inertia rb) (rb_joint rb)) tt
  | EInertia J => rb_set_inertia J rb
  | EMass m => on_inertia (fun I => Inr m (icom I) (iI I)) rb
  | ECom c => on_inertia (fun I => Inr (imass I) c (iI I)) rb
  | EIcom M => on_inertia (fun I => Inr (imass I) (icom I) M) rb
  | EJoint j => Ret (rb_set_joint j rb) tt
  | EType s => match jtype_of_string (token s) with
               | Ok t => Ret (rb_set_joint (set_type t (rb_joint rb)) rb) tt
               | Throw => Exn rb
               | UB => Bad
               end
  | EQmin x => on_joint (set_q_min x) rb
  | EQmax x => on_joint (set_q_max x) rb
  | ELimits x y => on_joint (set_q_limits x y) rb
  | EDqmax x => on_joint (set_dq_max x) rb
  | EFqmax x => on_joint (set_fq_max x) rb
  | ECoulomb x => on_joint (set_f_coulomb x) rb
  | EViscous x => on_joint (set_f_viscous x) rb
  | EStiction x => on_joint (set_f_stiction x) rb
  end.

(** articulated_body.h:436 written through the reference of
    src/python/spatial_dyn.cc:156-159; the cache (articulated_body.h:450) is not told *)
Definition set_rbs (l : list rigid_body) (ab : body) : body :=
  Body (ab_name ab) (ab_graphics ab) (ab_cache ab) (ab_dof ab) l (ab_q ab) (ab_dq ab) (ab_g ab)
       (ab_loads ab) (ab_Tbase ab) (ab_Ibase ab) (ab_anc ab) (ab_sub ab).
(** [ab.rigid_bodies[i].attribute = value]; Python list indexing, counting from the
    back below 0 and raising IndexError outside (src/python/spatial_dyn.cc:156-159) *)
Definition edit_link (i : Z) (e : link_edit) (ab : body) : mres body unit :=
  match idx (List.length (ab_rbs ab)) i with
  | None => Exn ab
  | Some k =>
    match edit_rb e (nth k (ab_rbs ab) rb_default) with
    | Ret rb _ => Ret (set_rbs (replace_nth k rb (ab_rbs ab)) ab) tt
    | Exn rb => Exn (set_rbs (replace_nth k rb (ab_rbs ab)) ab)
    | Bad => Bad
    end
  end.

(** A Python program: calls of the API and edits of links
    (src/python/spatial_dyn.cc:147-279). *)
Inductive pop := PCall (o : op) | PEdit (i : Z) (e : link_edit).
(** src/python/spatial_dyn.cc:147-279 *)
Definition pstep (o : pop) (ab : body) : option body :=
  match o with
  | PCall o => step solve pinv o ab
  | PEdit i e => settled (edit_link i e ab)
  end.
(** a client program; no particular lines *)
Fixpoint prun (h : list pop) (ab : body) : option body :=
  match h with
  | nil => Some ab
  | o :: h => match pstep o ab with Some ab' => prun h ab' | None => None end
  end.
(** articulated_body.cc:18-20 then a client program *)
Definition preached (h : list pop) (ab : body) : Prop :=
  exists name mem, prun h (body_new name mem) = Some ab.

(** src/python/spatial_dyn.cc:526-530, pickling a SpatialInertiad *)
Definition pickle_inertia (I : inertia) : K * v3 * (K * K * K * K * K * K) := (imass I, icom I, I_com_flat I).
(** src/python/spatial_dyn.cc:531-538 *)
Definition unpickle_inertia (t : K * v3 * (K * K * K * K * K * K)) : inertia :=
  let '(m, c, (xx, yy, zz, xy, xz, yz)) := t in inertia_flat m c xx yy zz xy xz yz.
End PyEdit.
