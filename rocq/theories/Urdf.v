(** src/parsers/urdf.cc *)
From Coq Require Import List Arith ZArith Bool String.
From Verif Require Import Scalar Base Spatial Joint Body Json.
Import ListNotations.

(** An XML element (tinyxml2): tag, attributes, child elements. *)
Inductive xml := Elem (tag : string) (attrs : list (string * string)) (kids : list xml).
(** XMLElement::Name() *)
Definition x_tag (x : xml) : string := let 'Elem t _ _ := x in t.
(** the attributes of an element *)
Definition x_attrs (x : xml) : list (string * string) := let 'Elem _ a _ := x in a.
(** the child elements *)
Definition x_kids (x : xml) : list xml := let 'Elem _ _ k := x in k.
(** XMLElement::Attribute: the first attribute of that name (urdf.cc:43-62). *)
Definition attr (x : xml) (k : string) : option string :=
  option_map snd (find (fun kv => String.eqb (fst kv) k) (x_attrs x)).
(** FirstChildElement(tag), and all of them by NextSiblingElement(tag) (urdf.cc:242-446). *)
Definition kids_of (l : list xml) (tag : string) : list xml := filter (fun x => String.eqb (x_tag x) tag) l.
(** FirstChildElement, urdf.cc:27-41 *)
Definition first_kid (l : list xml) (tag : string) : option xml := hd_error (kids_of l tag).

(** [rigid_bodies.at(name)]: the map from link names to link and parent name
    (urdf.cc:203-240). *)
Definition lookup_or_throw {A} (o : option A) : res A := match o with Some a => Ok a | None => Throw end.

Section Urdf.
Context {S : Scal}.
Local Open Scope k_scope.

(** External: tinyxml2's QueryDoubleAttribute on an attribute's text (where the value is used
    as a scalar, and as a limit); ctrl_utils::DecodeMatlab of a vector of a given size;
    Eigen's normalized(); joining file names. *)
Variable to_k : string -> option K.
Variable to_bound : string -> option bound.
Variable decode : nat -> string -> res (list K).
Variable normalized : v3 -> v3.
Variable join : string -> string -> string.

Local Open Scope string_scope.

(** urdf.cc:27-33 and 34-41 *)
Definition ParseElement (l : list xml) (tag : string) : res xml := lookup_or_throw (first_kid l tag).
(** urdf.cc:43-50 *)
Definition ParseAttribute (x : xml) (k : string) : res string := lookup_or_throw (attr x k).
(** urdf.cc:52-62 *)
Definition ParseDoubleAttribute (x : xml) (k : string) : res K :=
  bind (lookup_or_throw (attr x k)) (fun s => lookup_or_throw (to_k s)).
(** [QueryDoubleAttribute(k, &v)] with the status ignored: [v] keeps its value on failure
    (urdf.cc:88-201). *)
Definition query {A} (parse : string -> option A) (x : option xml) (k : string) (v : A) : A :=
  match x with
  | None => v
  | Some x => match attr x k with
              | None => v
              | Some s => match parse s with Some a => a | None => v end
              end
  end.
(** [DecodeMatlab<Eigen::Vector3d>]; a decoder returning another size is outside the
    contract. *)
Definition decode3 (s : string) : res v3 :=
  bind (decode 3 s) (fun l => match l with [a; b; c] => Ok (V3 a b c) | _ => UB end).

(** urdf.cc:80-82, as a matrix (the code multiplies quaternions). *)
Definition rpy_matrix (rpy : v3) : m3 :=
  m3mul (m3mul (angle_axis (vz rpy) ez) (angle_axis (vy rpy) ey)) (angle_axis (vx rpy) ex).
(** urdf.cc:64-86; the placement Translation(pos) * ori. *)
Definition ParseOriginElement (x : xml) : res iso :=
  match first_kid (x_kids x) "origin" with
  | None => Ok iso_id
  | Some o =>
      bind (match attr o "xyz" with None => Ok v3zero | Some s => decode3 s end) (fun pos =>
      bind (match attr o "rpy" with None => Ok m3id | Some s => bind (decode3 s) (fun r => Ok (rpy_matrix r)) end) (fun ori =>
      Ok (Iso ori pos)))
  end.

(** urdf.cc:103-133 *)
Definition ParseGeometry (path_meshes : string) (x_geometry : xml) : res geometry :=
  match x_kids x_geometry with
  | nil => Throw
  | t :: _ =>
      if String.eqb (x_tag t) "box" then
        bind (ParseAttribute t "size") (fun s => bind (decode3 s) (fun v => Ok (geo_scale v (geo_ty GBox geo_default))))
      else if String.eqb (x_tag t) "cylinder" then
        bind (ParseDoubleAttribute t "radius") (fun r => bind (ParseDoubleAttribute t "length") (fun l =>
          Ok (geo_length l (geo_radius r (geo_ty GCylinder geo_default)))))
      else if String.eqb (x_tag t) "sphere" then
        bind (ParseDoubleAttribute t "radius") (fun r => Ok (geo_radius r (geo_ty GSphere geo_default)))
      else if String.eqb (x_tag t) "mesh" then
        bind (ParseAttribute t "filename") (fun f =>
        let g := geo_mesh (join path_meshes f) (geo_ty GMesh geo_default) in
        match attr t "scale" with
        | None => Ok (geo_scale (V3 1 1 1)%k g)
        | Some s => bind (decode3 s) (fun v => Ok (geo_scale v g))
        end)
      else Throw
  end.
(** urdf.cc:135-151: looked for inside <geometry>. *)
Definition ParseMaterial (x_geometry : xml) : res material :=
  match first_kid (x_kids x_geometry) "material" with
  | None => Ok mat_default
  | Some m =>
      bind (ParseAttribute m "name") (fun n =>
      bind (match first_kid (x_kids m) "color" with
            | None => Ok (V3 1 1 1, 1)%k
            | Some c => bind (ParseAttribute c "rgba") (fun s => bind (decode 4 s) (fun l =>
                match l with [r; g; b; a] => Ok (V3 r g b, a) | _ => UB end))
            end) (fun '(rgb, a) =>
      bind (match first_kid (x_kids m) "texture" with
            | None => Ok ""
            | Some t => ParseAttribute t "filename"
            end) (fun t => Ok (Mat n rgb a t))))
  end.
(** urdf.cc:88-154 *)
Definition ParseGraphics (path_meshes : string) (x_visual : xml) : res graphics :=
  let name := match attr x_visual "name" with None => "" | Some s => s end in
  bind (ParseOriginElement x_visual) (fun T =>
  bind (ParseElement (x_kids x_visual) "geometry") (fun x_geometry =>
  bind (ParseGeometry path_meshes x_geometry) (fun g =>
  bind (ParseMaterial x_geometry) (fun m => Ok (Gfx name T g m))))).

(** urdf.cc:177-182: R' I R, flattened. *)
Definition turn_inertia (R : m3) (xx yy zz xy xz yz : K) : m3 :=
  m3mul (m3mul (m3tr R) (M3 (V3 xx xy xz) (V3 xy yy yz) (V3 xz yz zz))) R.
(** rigid_body.cc:15-22, set_inertia(mass, com, I_com_flat). *)
Definition rb_set_inertia_flat (m : K) (c : v3) (A : m3) (rb : rigid_body) : mres rigid_body unit :=
  if klt m 0 then Exn rb
  else Ret (Rb (rb_name rb) (rb_graphics rb) (rb_id rb) (rb_parent rb) (rb_T rb)
               (inertia_flat m c (vx (r0 A)) (vy (r1 A)) (vz (r2 A)) (vy (r0 A)) (vz (r0 A)) (vz (r1 A)))
               (rb_joint rb)) tt.
(** urdf.cc:160-185 *)
Definition ParseInertial (x_link : xml) (rb : rigid_body) : res rigid_body :=
  match first_kid (x_kids x_link) "inertial" with
  | None => Ok rb
  | Some x =>
      bind (ParseOriginElement x) (fun T =>
      bind (ParseElement (x_kids x) "mass") (fun xm =>
      bind (ParseDoubleAttribute xm "value") (fun m =>
      bind (ParseElement (x_kids x) "inertia") (fun xi =>
      bind (ParseDoubleAttribute xi "ixx") (fun xx =>
      bind (ParseDoubleAttribute xi "iyy") (fun yy =>
      bind (ParseDoubleAttribute xi "izz") (fun zz =>
      bind (ParseDoubleAttribute xi "ixy") (fun xy =>
      bind (ParseDoubleAttribute xi "ixz") (fun xz =>
      bind (ParseDoubleAttribute xi "iyz") (fun yz =>
      called (rb_set_inertia_flat m (tra T) (turn_inertia (rot T) xx yy zz xy xz yz) rb)))))))))))
  end.
(** urdf.cc:187-192 *)
Fixpoint ParseVisuals (path_meshes : string) (l : list xml) : res (list graphics) :=
  match l with
  | nil => Ok nil
  | x :: t => bind (ParseGraphics path_meshes x) (fun g => bind (ParseVisuals path_meshes t) (fun gs => Ok (g :: gs)))
  end.
(** urdf.cc:156-201 *)
Definition ParseRigidBody (path_meshes : string) (x_link : xml) : res rigid_body :=
  bind (ParseAttribute x_link "name") (fun name =>
  bind (ParseInertial x_link (rb_with_name name rb_default)) (fun rb =>
  bind (ParseVisuals path_meshes (kids_of (x_kids x_link) "visual")) (fun gs =>
  Ok (rb_with_graphics gs rb)))).

(** urdf.cc:258: std::map from link name to link and parent name. *)
Definition rmap := string -> option (rigid_body * string).
(** [rigid_bodies[k] = v], urdf.cc:242-446 *)
Definition rput (m : rmap) (k : string) (v : rigid_body * string) : rmap :=
  fun n => if String.eqb n k then Some v else m n.
(** [rigid_bodies.at(k)], urdf.cc:203-240 *)
Definition r_at (m : rmap) (k : string) : res (rigid_body * string) := lookup_or_throw (m k).

(** urdf.cc:257-271: links in document order. *)
Fixpoint ParseLinks (path_meshes : string) (l : list xml) (m : rmap) : res (rmap * list string) :=
  match l with
  | nil => Ok (m, nil)
  | x :: t =>
      bind (ParseRigidBody path_meshes x) (fun rb =>
      match m (rb_name rb) with
      | Some _ => Throw
      | None =>
          bind (ParseLinks path_meshes t (rput m (rb_name rb) (rb, ""))) (fun '(m', names) =>
          Ok (m', rb_name rb :: names))
      end)
  end.

(** urdf.cc:295-306 *)
Definition ParseAxis (x_joint : xml) : res nat :=
  match first_kid (x_kids x_joint) "axis" with
  | None => Ok 0%nat
  | Some a =>
      bind (ParseAttribute a "xyz") (fun s => bind (decode3 s) (fun v =>
      let axis := normalized v in
      Ok (if klt (klit 8 10) (vy axis) then 1 else if klt (klit 8 10) (vz axis) then 2 else 0)%nat))
  end.
(** urdf.cc:337-352 *)
Definition axis_type (prismatic : bool) (axis : nat) : jtype :=
  match axis with
  | 0 => if prismatic then JPx else JRx
  | 1 => if prismatic then JPy else JRy
  | 2 => if prismatic then JPz else JRz
  | _ => JUndef
  end%nat.
(** urdf.cc:308-328 and 354-362 *)
Definition make_joint (x_joint : xml) (continuous : bool) (t : jtype) : res joint :=
  let dyn := first_kid (x_kids x_joint) "dynamics" in
  let lim := first_kid (x_kids x_joint) "limit" in
  let f_viscous := query to_k dyn "damping" 0 in
  let f_stiction := query to_k dyn "friction" 0 in
  let f_coulomb := query to_k dyn "coulomb" 0 in
  let q_min := query to_bound lim "lower" NInf in
  let q_max := query to_bound lim "upper" PInf in
  let dq_max := query to_bound lim "velocity" PInf in
  let fq_max := query to_bound lim "effort" PInf in
  bind (if continuous then Ok (joint_of t) else called (set_q_limits q_min q_max (joint_of t))) (fun j =>
  bind (called (set_dq_max dq_max j)) (fun j =>
  bind (called (set_fq_max fq_max j)) (fun j =>
  bind (called (set_f_coulomb f_coulomb j)) (fun j =>
  bind (called (set_f_stiction f_stiction j)) (fun j =>
  called (set_f_viscous f_viscous j)))))).
(** urdf.cc:276-378, one <joint>.  A missing <child> is dereferenced (284-285). *)
Definition ParseJoint (x : xml) (m : rmap) : res rmap :=
  bind (ParseElement (x_kids x) "parent") (fun xp =>
  bind (ParseAttribute xp "link") (fun parent =>
  bind (r_at m parent) (fun _ =>
  match first_kid (x_kids x) "child" with
  | None => UB
  | Some xc =>
  bind (ParseAttribute xc "link") (fun child =>
  bind (r_at m child) (fun '(rb, _) =>
  bind (ParseOriginElement x) (fun T =>
  bind (ParseAxis x) (fun axis =>
  bind (ParseAttribute x "name") (fun _ =>
  bind (ParseAttribute x "type") (fun ty =>
  if String.eqb ty "revolute" || String.eqb ty "continuous" || String.eqb ty "prismatic" then
    bind (make_joint x (String.eqb ty "continuous") (axis_type (String.eqb ty "prismatic") axis)) (fun j =>
    Ok (rput m child (rb_with_T T (rb_with_joint j rb), parent)))
  else if String.eqb ty "fixed" then
    Ok (rput m child (rb_with_T T (rb_with_joint (joint_of JUndef) rb), parent))
  else if String.eqb ty "floating" then Throw
  else if String.eqb ty "planar" then Throw
  else Ok m))))))
  end))).
(** urdf.cc:273-380 *)
Fixpoint ParseJoints (l : list xml) (m : rmap) : res rmap :=
  match l with
  | nil => Ok m
  | x :: t => bind (ParseJoint x m) (fun m => ParseJoints t m)
  end.

(** urdf.cc:384-388 *)
Fixpoint find_root (m : rmap) (l : list string) : res (option string) :=
  match l with
  | nil => Ok None
  | n :: t => bind (r_at m n) (fun '(_, p) => if String.eqb p "" then Ok (Some n) else find_root m t)
  end.
(** urdf.cc:231-240.  [fuel] bounds the depth of the recursion: with more nested calls
    than there are links, some link is its own ancestor and the recursion never ends
    (stack overflow). *)
Fixpoint dfs (m : rmap) (unsorted : list string) (fuel : nat) (it : string) : res (list string) :=
  match fuel with
  | O => UB
  | Datatypes.S fuel =>
      bind ((fix children (l : list string) : res (list string) :=
               match l with
               | nil => Ok nil
               | c :: t =>
                   bind (r_at m c) (fun '(_, p) =>
                   if String.eqb p it then
                     bind (dfs m unsorted fuel c) (fun a => bind (children t) (fun b => Ok (a ++ b)%list))
                   else children t)
               end) unsorted) (fun l => Ok (it :: l))
  end.
(** urdf.cc:382-389; without a root the end iterator is dereferenced (235). *)
Definition sort_links (m : rmap) (unsorted : list string) : res (list string) :=
  bind (find_root m unsorted) (fun o =>
  match o with
  | None => UB
  | Some root => dfs m unsorted (List.length unsorted) root
  end).

(** urdf.cc:416-429 *)
Fixpoint transfer (m : rmap) (name : string) (T : iso) (parent : string) (l : list string) : res rmap :=
  match l with
  | nil => Ok m
  | c :: t =>
      bind (r_at m c) (fun '(rb, p) =>
      transfer (if String.eqb p name then rput m c (rb_with_T (iso_mul T (rb_T rb)) rb, parent) else m) name T parent t)
  end.
(** urdf.cc:405-410 *)
Definition moved_graphics (T : iso) (l : list graphics) : list graphics :=
  map (fun g => Gfx (gname g) (iso_mul T (gT g)) (ggeo g) (gmat g)) l.
(** urdf.cc:396-434, over the links after the first; returns the map and the links kept. *)
Fixpoint merge_rest (m : rmap) (l : list string) : res (rmap * list string) :=
  match l with
  | nil => Ok (m, nil)
  | n :: t =>
      bind (r_at m n) (fun '(rb, p) =>
      if negb (jtype_eqb (jtyp (rb_joint rb)) JUndef) then
        bind (merge_rest m t) (fun '(m, kept) => Ok (m, n :: kept))
      else if String.eqb p "" then Throw
      else
        bind (r_at m p) (fun '(rp, pp) =>
        bind (called (rb_set_inertia (iadd (rb_inertia rp) (iact (rb_T rb) (rb_inertia rb)))
                        (rb_with_graphics (rb_graphics rp ++ moved_graphics (rb_T rb) (rb_graphics rb)) rp))) (fun rp =>
        bind (transfer (rput m p (rp, pp)) (rb_name rb) (rb_T rb) p t) (fun m =>
        merge_rest m t))))
  end.
(** urdf.cc:391-435 *)
Definition merge_fixed (m : rmap) (l : list string) : res (rmap * list string) :=
  match l with
  | nil => Ok (m, nil)
  | root :: t => bind (merge_rest m t) (fun '(m, kept) => Ok (m, root :: kept))
  end.

(** urdf.cc:203-229, returning the id. *)
Definition AddLink (m : rmap) (ids : string -> option Z) (n : string) (ab : body) : res (body * Z) :=
  bind (r_at m n) (fun '(rb, p) =>
  if String.eqb p "" then
    bind (called (set_T_base (rb_T rb) ab)) (fun ab =>
    bind (called (set_inertia_base (rb_inertia rb) ab)) (fun ab =>
    Ok (ab_with_graphics (rb_graphics rb) ab, (-1)%Z)))
  else
    bind (lookup_or_throw (ids p)) (fun id_parent =>
    match add_rigid_body rb id_parent ab with Ret ab id => Ok (ab, id) | Exn _ => Throw | Bad => UB end)).
(** urdf.cc:437-443 *)
Fixpoint AddLinks (m : rmap) (ids : string -> option Z) (l : list string) (ab : body) : res body :=
  match l with
  | nil => Ok ab
  | n :: t =>
      bind (AddLink m ids n ab) (fun '(ab, id) =>
      AddLinks m (fun k => if String.eqb k n then Some id else ids k) t ab)
  end.

(** urdf.cc:382-445: from the links and parents that were read to the robot. *)
Definition assemble (simplify : bool) (m : rmap) (unsorted : list string) (ab : body) : res body :=
  bind (sort_links m unsorted) (fun l =>
  bind (if simplify then merge_fixed m l else Ok (m, l)) (fun '(m, l) =>
  AddLinks m (fun _ => None) l ab)).

(** urdf.cc:252-380: from the document's top-level elements to the robot's name, the
    links with their parents, and the links in document order. *)
Definition read_document (path_meshes : string) (doc : list xml) : res (string * rmap * list string) :=
  bind (ParseElement doc "robot") (fun x =>
  bind (ParseAttribute x "name") (fun name =>
  bind (ParseElement (x_kids x) "link") (fun _ =>
  bind (ParseLinks path_meshes (kids_of (x_kids x) "link") (fun _ => None)) (fun '(m, names) =>
  bind (ParseElement (x_kids x) "joint") (fun _ =>
  bind (ParseJoints (kids_of (x_kids x) "joint") m) (fun m => Ok (name, m, names))))))).

(** urdf.cc:242-446; [doc] is the parsed document, [None] if it cannot be read. *)
Definition LoadModel (doc : option (list xml)) (path_meshes : string) (simplify : bool) (mem : cache) : res body :=
  bind (lookup_or_throw doc) (fun doc =>
  bind (read_document path_meshes doc) (fun '(name, m, names) =>
  assemble simplify m names (body_new name mem))).

(** src/python/spatial_dyn.cc:625-626: pybind11 (external) move-constructs the Python
    object's robot from the one returned. *)
Definition py_load_model (doc : option (list xml)) (path_meshes : string) (simplify : bool) (mem : cache) : res body :=
  bind (LoadModel doc path_meshes simplify mem) (fun ab => Ok (fst (body_move ab))).

End Urdf.
