(** Specifications: URDF loading (C34, C35). *)
From Coq Require Import List Arith ZArith Bool String Permutation Reals.
From Verif Require Import Scalar Base Spatial SpecGeo Joint Body Json Ops Urdf SpecDyn Instances.
Import ListNotations.

Section SpecUrdf.
Context {S : Scal}.
Local Open Scope k_scope.

(** The links of a document: [m n] is the link named [n] with the name of its parent, the
    empty name for a link that is the child of no joint; [names] in document order. *)
Definition link (m : rmap) (n : string) : rigid_body := match m n with Some (rb, _) => rb | None => rb_default end.
Definition parent (m : rmap) (n : string) : string := match m n with Some (_, p) => p | None => "" end.
Record links_ok (m : rmap) (names : list string) : Prop := {
  lk_distinct : NoDup names;
  lk_in : forall n, In n names <-> m n <> None;
  lk_name : forall n, In n names -> rb_name (link m n) = n;
  lk_parent : forall n, In n names -> parent m n = ""%string \/ In (parent m n) names;
  lk_nonempty : ~ In ""%string names
}.
(** [n] is [a] or hangs below it. *)
Inductive below (m : rmap) (a : string) : string -> Prop :=
| below_self : below m a a
| below_child n rb p : m n = Some (rb, p) -> below m a p -> below m a n.
(** Every link after the first has its parent before it. *)
Definition parents_first (m : rmap) (l : list string) : Prop :=
  forall a n b, l = a ++ n :: b -> a <> [] -> In (parent m n) a.
(** The first link without a parent. *)
Definition first_root (m : rmap) (names : list string) (root : string) : Prop :=
  exists a b, names = a ++ root :: b /\ parent m root = ""%string /\
    Forall (fun n => parent m n <> ""%string) a.

(** World placement of link [n] when joint [k] is at position [q k]. *)
Inductive placed (m : rmap) (root : string) (q : string -> K) : string -> iso -> Prop :=
| placed_root : placed m root q root (rb_T (link m root))
| placed_child n rb p T : n <> root -> m n = Some (rb, p) -> placed m root q p T ->
    placed m root q n (iso_mul (iso_mul T (rb_T rb)) (T_joint (rb_joint rb) (q n))).

Definition fixed_joint (rb : rigid_body) : Prop := jtyp (rb_joint rb) = JUndef.
(** Link [n] is rigidly attached, through fixed joints only, to the moving link (or root)
    [a], where it sits at [T]. *)
Inductive attached (m : rmap) (root : string) : string -> string -> iso -> Prop :=
| attached_self n : n = root \/ ~ fixed_joint (link m n) -> attached m root n n iso_id
| attached_child n rb p a T : n <> root -> m n = Some (rb, p) -> fixed_joint rb -> attached m root p a T ->
    attached m root n a (iso_mul T (rb_T rb)).
(** [g] lists the links below [root] attached to [a], with where they sit. *)
Definition rigid_group (m : rmap) (root a : string) (g : list (string * iso)) : Prop :=
  NoDup (map fst g) /\ forall n T, In (n, T) g <-> below m root n /\ attached m root n a T.
Definition group_mass (m : rmap) (g : list (string * iso)) : K :=
  total (map (fun nT => imass (rb_inertia (link m (fst nT)))) g).
(** Momentum of the group, in the coordinates of the link it is attached to, when that link
    moves with [v]: each member's momentum in its own coordinates, carried over. *)
Definition group_momentum (m : rmap) (g : list (string * iso)) (v : motion) : force :=
  fold_right fadd fzero
    (map (fun nT => fact (snd nT) (imul (rb_inertia (link m (fst nT))) (mact (iso_inv (snd nT)) v))) g).

(** The pictures of the group, where they are seen from the link it is attached to. *)
Definition group_pictures (m : rmap) (g : list (string * iso)) : list graphics :=
  flat_map (fun nT => map (fun p => Gfx (gname p) (iso_mul (snd nT) (gT p)) (ggeo p) (gmat p))
                          (rb_graphics (link m (fst nT)))) g.

(** What a merged link must be: the mass, momentum and pictures of the whole group. *)
Definition same_body (I : inertia) (pics : list graphics) (m : rmap) (g : list (string * iso)) : Prop :=
  imass I = group_mass m g /\ (forall v, imul I v = group_momentum m g v) /\ Permutation pics (group_pictures m g).
(** Rigid placements, positive masses, symmetric rotational inertias. *)
Definition solid_links (m : rmap) (root : string) : Prop :=
  forall n, below m root n ->
    rigid (rb_T (link m n)) /\ klt 0 (imass (rb_inertia (link m n))) = true /\ isym (rb_inertia (link m n)).

(** Names of the robot's links, in the order of their indices. *)
Definition link_names (ab : body) : list string := map rb_name (ab_rbs ab).
(** [i] is where [n] is in [l]. *)
Definition position (l : list string) (i : nat) (n : string) : Prop := nth_error l i = Some n.
(** The robot [ab] has base [root] and the links [l], in this order, as [m] describes them. *)
Record made_of (m : rmap) (root : string) (l : list string) (ab : body) : Prop := {
  mk_dof : ab_dof ab = List.length l;
  mk_base : ab_Tbase ab = rb_T (link m root);
  mk_mass : imass (ab_Ibase ab) = imass (rb_inertia (link m root)) /\ icom (ab_Ibase ab) = icom (rb_inertia (link m root)) /\
    (isym (rb_inertia (link m root)) -> ab_Ibase ab = rb_inertia (link m root));
  mk_graphics : ab_graphics ab = rb_graphics (link m root);
  mk_links : forall i n, position l i n ->
    let rb := link m n in let rb' := nth i (ab_rbs ab) rb_default in
    rb_name rb' = rb_name rb /\ rb_graphics rb' = rb_graphics rb /\ rb_T rb' = rb_T rb /\
    rb_inertia rb' = rb_inertia rb /\ rb_joint rb' = rb_joint rb /\ rb_id rb' = Z.of_nat i /\
    ((parent m n = root /\ rb_parent rb' = (-1)%Z) \/
     (exists j, (j < i)%nat /\ position l j (parent m n) /\ rb_parent rb' = Z.of_nat j));
  mk_rest : ab_q ab = repeat 0 (ab_dof ab) /\ ab_dq ab = repeat 0 (ab_dof ab) /\ forall i, ab_loads ab i = None
}.

(** Histories of AddRigidBody, set_T_base_to_world and set_inertia_base calls only. *)
Definition building (h : list op) : Prop :=
  Forall (fun o => match o with OAdd _ _ | OSetBase _ | OSetIbase _ => True | _ => False end) h.
(** [ab] is a robot built by such calls, then given pictures for its base. *)
Definition built (solve : list (list K) -> list K -> list K) (pinv : list (list K) -> K -> list (list K) * bool) (ab : body) : Prop :=
  exists h ab0 gs, building h /\ reached solve pinv h ab0 /\ ab = ab_with_graphics gs ab0.
(** Sums of masses that are not negative are not negative (so for doubles too: the sum may
    be infinite or NaN). *)
Definition masses_add : Prop := forall a b : K, klt a 0 = false -> klt b 0 = false -> klt (a + b) 0 = false.

(** * What a document says *)
Local Open Scope string_scope.
(** The link a <joint> names in its <parent> or <child>. *)
Definition names_link (x : xml) (tag : string) : option string :=
  match first_kid (x_kids x) tag with Some y => attr y "link" | None => None end.
Definition of_type (x : xml) (l : list string) : Prop := exists t, attr x "type" = Some t /\ In t l.
Definition turning (x : xml) : Prop := of_type x ["revolute"; "continuous"].
Definition sliding (x : xml) : Prop := of_type x ["prismatic"].
Definition holding (x : xml) : Prop := of_type x ["fixed"].
Definition joins (x : xml) : Prop := turning x \/ sliding x \/ holding x.
(** The number in attribute [k] of the first [tag] inside [x]. *)
Definition number (to_k : string -> option K) (x : xml) (tag k : string) (v : K) : Prop :=
  exists y s, first_kid (x_kids x) tag = Some y /\ attr y k = Some s /\ to_k s = Some v.
(** The same for an optional one, with [d] where there is none. *)
Definition optional {A} (parse : string -> option A) (x : xml) (tag k : string) (d v : A) : Prop :=
  (exists y s, first_kid (x_kids x) tag = Some y /\ attr y k = Some s /\ parse s = Some v) \/
  (v = d /\ forall y s, first_kid (x_kids x) tag = Some y -> attr y k = Some s -> parse s = None).
(** The vector in attribute [k] of the first [tag] inside [x]. *)
Definition vector (decode : nat -> string -> res (list K)) (x : xml) (tag k : string) (v : v3) : Prop :=
  exists y s, first_kid (x_kids x) tag = Some y /\ attr y k = Some s /\ decode 3%nat s = Ok [vx v; vy v; vz v].
(** Roll, pitch, yaw about fixed axes. *)
Definition rpy_rotation (r p y : K) : m3 :=
  let '(cr, sr, cp, sp, cy, sy) := (kcos r, ksin r, kcos p, ksin p, kcos y, ksin y) in
  (M3 (V3 (cy * cp) (cy * sp * sr - sy * cr) (cy * sp * cr + sy * sr))
      (V3 (sy * cp) (sy * sp * sr + cy * cr) (sy * sp * cr - cy * sr))
      (V3 (- sp) (cp * sr) (cp * cr)))%k.
(** The placement in the <origin> of [x]; missing parts are zero. *)
Definition origin (decode : nat -> string -> res (list K)) (x : xml) (T : iso) : Prop :=
  (vector decode x "origin" "xyz" (tra T) \/
   tra T = V3 0 0 0 /\ forall y, first_kid (x_kids x) "origin" = Some y -> attr y "xyz" = None) /\
  ((exists w, vector decode x "origin" "rpy" w /\ rot T = rpy_rotation (vx w) (vy w) (vz w)) \/
   rot T = m3id /\ forall y, first_kid (x_kids x) "origin" = Some y -> attr y "rpy" = None).
(** The direction a joint moves in. *)
Definition axis_of (j : joint) : v3 := if is_prismatic j then mlin (jsub j) else mang (jsub j).
(** Inertia of mass [m], rotational inertia [xx..yz] about the centre of mass, at the
    placement [T] of the inertial frame: as URDF means it. *)
Definition inertia_at (T : iso) (m xx yy zz xy xz yz : K) : inertia :=
  iact T (inertia_flat m (V3 0 0 0) xx yy zz xy xz yz).

(** The joint [j] as the <joint> [x] that moves describes it, but for its direction. *)
Record as_written (to_k : string -> option K) (to_bound : string -> option bound) (x : xml) (j : joint) : Prop := {
  wj_kind : (turning x -> is_revolute j = true) /\ (sliding x -> is_prismatic j = true);
  wj_axis : In (axis_of j) [ex; ey; ez];
  wj_unlimited : of_type x ["continuous"] -> jqmin j = NInf /\ jqmax j = PInf;
  wj_limited : ~ of_type x ["continuous"] ->
    optional to_bound x "limit" "lower" NInf (jqmin j) /\ optional to_bound x "limit" "upper" PInf (jqmax j);
  wj_velocity : optional to_bound x "limit" "velocity" PInf (jdqmax j);
  wj_effort : optional to_bound x "limit" "effort" PInf (jfqmax j);
  wj_coulomb : optional to_k x "dynamics" "coulomb" 0 (jcoulomb j);
  wj_damping : optional to_k x "dynamics" "damping" 0 (jviscous j);
  wj_friction : optional to_k x "dynamics" "friction" 0 (jstiction j)
}.
(** The <joint> [x] attaches link [c]. *)
Definition attaches (x : xml) (c : string) : Prop := names_link x "child" = Some c /\ joins x.

End SpecUrdf.

(** Length of a real vector. *)
Definition norm (v : @v3 RScal) : R := sqrt (vx v * vx v + vy v * vy v + vz v * vz v)%R.
