(** src/parsers/json.cc, src/parsers/yaml.cc and the pickling of
    src/python/spatial_dyn.cc:233-237. *)
From Coq Require Import List Arith ZArith Bool String.
From Verif Require Import Scalar Base Spatial Joint Body.
Import ListNotations.

Section Json.
Context {S : Scal}.
Local Open Scope k_scope.

(** A JSON value (nlohmann::json) or YAML node in memory.  Numbers that are not integers
    are doubles, of which the infinities are kept apart as in [bound] (json.cc, yaml.cc). *)
Inductive val :=
| VNull
| VBool (b : bool)
| VInt (z : Z)
| VNum (x : bound)
| VStr (s : string)
| VArr (l : list val)
| VObj (l : list (string * val)).

(** ctrl_utils' conversion of Eigen::Isometry3d (external, by quaternion and position). *)
Variable enc_iso : iso -> val.
Variable dec_iso : val -> res iso.

(** [at], json.cc:26-45 *)
Fixpoint assoc (k : string) (l : list (string * val)) : option val :=
  match l with
  | nil => None
  | (k', v) :: t => if String.eqb k k' then Some v else assoc k t
  end.

(** [json.count(key)] then [json.at(key)]: a value that is no object has no keys.
    With [yaml], [node[key]]: subscripting a scalar throws, null and sequences have no
    string keys (e.g. json.cc:26-45, yaml.cc). *)
Definition lookup (yaml : bool) (v : val) (k : string) : res (option val) :=
  match v with
  | VObj l => Ok (assoc k l)
  | VNull | VArr _ => Ok None
  | _ => if yaml then Throw else Ok None
  end.
(** [if (json.count(k)) set(json.at(k).get<A>())] (e.g. json.cc:57-79). *)
Definition opt_field {A B} (y : bool) (v : val) (k : string) (get : val -> res A) (set : A -> B -> res B) (b : B) : res B :=
  bind (lookup y v k) (fun o => match o with None => Ok b | Some x => bind (get x) (fun a => set a b) end).
(** [if (!json.count(k)) throw ...; set(json.at(k).get<A>())] (e.g. json.cc:135-152). *)
Definition req_field {A B} (y : bool) (v : val) (k : string) (get : val -> res A) (set : A -> B -> res B) (b : B) : res B :=
  bind (lookup y v k) (fun o => match o with None => Throw | Some x => bind (get x) (fun a => set a b) end).
(** A plain assignment (e.g. json.cc:57-79). *)
Definition assign {A B} (f : A -> B -> B) : A -> B -> res B := fun a b => Ok (f a b).
(** A setter of the library, which may throw (e.g. json.cc:92-119). *)
Definition through_setter {A B} (f : A -> B -> mres B unit) : A -> B -> res B := fun a b => called (f a b).

(** [get<double>()]: any number; null, booleans and the rest throw (e.g. json.cc:92-119). *)
Definition get_double (v : val) : res bound :=
  match v with VNum x => Ok x | VInt z => Ok (Fin (klit z 1)) | _ => Throw end.
(** The same where the model keeps a scalar: an infinite value is outside the model
    unless the scalars contain it (e.g. json.cc:135-152). *)
Definition get_k (v : val) : res K :=
  bind (get_double v) (fun x => match x with Fin k => Ok k | _ => UB end).
(** [get<int>()].  Simplified: integers and booleans only (a JSON number with a fraction
    would be truncated) (json.cc:57-79). *)
Definition get_int (v : val) : res Z :=
  match v with VInt z => Ok z | VBool b => Ok (if b then 1 else 0)%Z | VNum _ => UB | _ => Throw end.
(** [get<std::string>()].  Simplified: YAML would return the text of a number
    (e.g. json.cc:57-79). *)
Definition get_str (v : val) : res string := match v with VStr s => Ok s | _ => Throw end.
(** ctrl_utils' conversion of Eigen vectors (external): an array of the coefficients; an
    array of another size throws (e.g. json.cc:129-133). *)
Definition enc_list (l : list K) : val := VArr (map (fun k => VNum (Fin k)) l).
(** element by element, e.g. json.cc:26-45 *)
Fixpoint get_all {A} (get : val -> res A) (l : list val) : res (list A) :=
  match l with
  | nil => Ok nil
  | v :: t => bind (get v) (fun a => bind (get_all get t) (fun r => Ok (a :: r)))
  end.
(** ctrl_utils conversion from an array, e.g. json.cc:135-152 *)
Definition dec_list (n : nat) (v : val) : res (list K) :=
  match v with
  | VArr l => if Nat.eqb (List.length l) n then get_all get_k l else Throw
  | _ => Throw
  end.
(** e.g. json.cc:129-133 *)
Definition enc_v3 (x : v3) : val := enc_list [vx x; vy x; vz x].
(** e.g. json.cc:135-152 *)
Definition dec_v3 (v : val) : res v3 :=
  bind (dec_list 3 v) (fun l => match l with [a; b; c] => Ok (V3 a b c) | _ => Throw end).
(** [get<std::vector<A>>()]: arrays only (e.g. json.cc:57-79). *)
Definition get_vector {A} (get : val -> res A) (v : val) : res (list A) :=
  match v with VArr l => get_all get l | _ => Throw end.

Local Open Scope string_scope.

(** json.cc:242-244, yaml.cc:267-271 *)
Definition enc_gtype (t : gtype) : val := VStr (gtype_to_string t).
(** json.cc:246-248, yaml.cc:273-276 *)
Definition dec_gtype (v : val) : res gtype := bind (get_str v) (fun s => gtype_of_string (token s)).
(** json.cc:121-123, yaml.cc:125-129 *)
Definition enc_jtype (t : jtype) : val := VStr (jtype_to_string t).
(** json.cc:125-127, yaml.cc:131-134 *)
Definition dec_jtype (v : val) : res jtype := bind (get_str v) (fun s => jtype_of_string (token s)).

(** graphics.h:59-80, 82-87 and 89-94: default members. *)
Definition geo_default : geometry := Geo GUndef (V3 1 1 1) 0 0 EmptyString.
(** graphics.h:82-87 *)
Definition mat_default : material := Mat EmptyString (V3 1 1 1) 1 EmptyString.
(** graphics.h:89-94 *)
Definition gfx_default : graphics := Gfx EmptyString iso_id geo_default mat_default.
(** Assignments to members (json.cc:199-240). *)
Definition geo_ty (t : gtype) (g : geometry) := Geo t (gscale g) (gradius g) (glength g) (gmesh g).
(** json.cc:199-240 *)
Definition geo_scale (x : v3) (g : geometry) := Geo (gty g) x (gradius g) (glength g) (gmesh g).
(** json.cc:199-240 *)
Definition geo_radius (x : K) (g : geometry) := Geo (gty g) (gscale g) x (glength g) (gmesh g).
(** json.cc:199-240 *)
Definition geo_length (x : K) (g : geometry) := Geo (gty g) (gscale g) (gradius g) x (gmesh g).
(** json.cc:199-240 *)
Definition geo_mesh (x : string) (g : geometry) := Geo (gty g) (gscale g) (gradius g) (glength g) x.

(** json.cc:176-197, yaml.cc:192-215 *)
Definition enc_geo (g : geometry) : val :=
  VObj (("type", enc_gtype (gty g)) ::
    match gty g with
    | GBox => [("scale", enc_v3 (gscale g))]
    | GCapsule | GCylinder => [("radius", VNum (Fin (gradius g))); ("length", VNum (Fin (glength g)))]
    | GSphere => [("radius", VNum (Fin (gradius g)))]
    | GMesh => [("mesh", VStr (gmesh g)); ("scale", enc_v3 (gscale g))]
    | GUndef => nil
    end).
(** json.cc:199-240, yaml.cc:217-265 *)
Definition dec_geo (y : bool) (v : val) : res geometry :=
  bind (req_field y v "type" dec_gtype (assign geo_ty) geo_default) (fun g =>
  match gty g with
  | GBox => req_field y v "scale" dec_v3 (assign geo_scale) g
  | GCapsule | GCylinder =>
      bind (req_field y v "radius" get_k (assign geo_radius) g) (fun g =>
      req_field y v "length" get_k (assign geo_length) g)
  | GSphere => req_field y v "radius" get_k (assign geo_radius) g
  | GMesh =>
      bind (opt_field y v "scale" dec_v3 (assign geo_scale) g) (fun g =>
      req_field y v "mesh" get_str (assign geo_mesh) g)
  | GUndef => Ok g
  end).

(** json.cc:250-254, yaml.cc:278-284 *)
Definition enc_mat (m : material) : val :=
  VObj [("name", VStr (mname m));
        ("rgba", enc_list [vx (mrgb m); vy (mrgb m); vz (mrgb m); malpha m]);
        ("texture", VStr (mtexture m))].
(** json.cc:256-266, yaml.cc:286-297 *)
Definition dec_mat (y : bool) (v : val) : res material :=
  bind (opt_field y v "name" get_str (assign (fun s m => Mat s (mrgb m) (malpha m) (mtexture m))) mat_default) (fun m =>
  bind (opt_field y v "rgba" (dec_list 4)
         (assign (fun l m => match l with [r; g; b; a] => Mat (mname m) (V3 r g b) a (mtexture m) | _ => m end)) m) (fun m =>
  opt_field y v "texture" get_str (assign (fun s m => Mat (mname m) (mrgb m) (malpha m) s)) m)).

(** json.cc:154-159, yaml.cc:167-174 *)
Definition enc_gfx (g : graphics) : val :=
  VObj [("name", VStr (gname g)); ("T_to_parent", enc_iso (gT g));
        ("geometry", enc_geo (ggeo g)); ("material", enc_mat (gmat g))].
(** json.cc:161-174, yaml.cc:176-190 *)
Definition dec_gfx (y : bool) (v : val) : res graphics :=
  bind (opt_field y v "name" get_str (assign (fun s g => Gfx s (gT g) (ggeo g) (gmat g))) gfx_default) (fun g =>
  bind (opt_field y v "T_to_parent" dec_iso (assign (fun T g => Gfx (gname g) T (ggeo g) (gmat g))) g) (fun g =>
  bind (opt_field y v "geometry" (dec_geo y) (assign (fun x g => Gfx (gname g) (gT g) x (gmat g))) g) (fun g =>
  opt_field y v "material" (dec_mat y) (assign (fun m g => Gfx (gname g) (gT g) (ggeo g) m)) g))).

(** json.cc:129-133, yaml.cc:136-142 *)
Definition enc_inertia (I : inertia) : val :=
  let '(xx, yy, zz, xy, xz, yz) := I_com_flat I in
  VObj [("mass", VNum (Fin (imass I))); ("com", enc_v3 (icom I));
        ("I_com_flat", enc_list [xx; yy; zz; xy; xz; yz])].
(** json.cc:135-152, yaml.cc:144-165 *)
Definition dec_inertia (y : bool) (v : val) : res inertia :=
  req_field y v "mass" get_k (fun m _ =>
  req_field y v "com" dec_v3 (fun c _ =>
  req_field y v "I_com_flat" (dec_list 6) (fun l _ =>
    match l with
    | [xx; yy; zz; xy; xz; yz] => Ok (inertia_flat m c xx yy zz xy xz yz)
    | _ => Throw
    end) unit_mass) unit_mass) unit_mass.

(** json.cc:81-90, yaml.cc:81-92 *)
Definition enc_joint (j : joint) : val :=
  VObj [("type", enc_jtype (jtyp j));
        ("q_min", VNum (jqmin j)); ("q_max", VNum (jqmax j));
        ("dq_max", VNum (jdqmax j)); ("fq_max", VNum (jfqmax j));
        ("f_coulomb", VNum (Fin (jcoulomb j))); ("f_viscous", VNum (Fin (jviscous j)));
        ("f_stiction", VNum (Fin (jstiction j)))].
(** json.cc:92-119, yaml.cc:94-123 *)
Definition dec_joint (y : bool) (v : val) : res joint :=
  bind (req_field y v "type" dec_jtype (assign set_type) joint_default) (fun j =>
  bind (opt_field y v "q_min" get_double (through_setter set_q_min) j) (fun j =>
  bind (opt_field y v "q_max" get_double (through_setter set_q_max) j) (fun j =>
  bind (opt_field y v "dq_max" get_double (through_setter set_dq_max) j) (fun j =>
  bind (opt_field y v "fq_max" get_double (through_setter set_fq_max) j) (fun j =>
  bind (opt_field y v "f_coulomb" get_k (through_setter set_f_coulomb) j) (fun j =>
  bind (opt_field y v "f_viscous" get_k (through_setter set_f_viscous) j) (fun j =>
  opt_field y v "f_stiction" get_k (through_setter set_f_stiction) j))))))).

(** rigid_body.h:60, 67, 74, 81, 109 and 146: name, graphics and the trivial setters. *)
Definition rb_with_name (s : string) (r : rigid_body) :=
  Rb s (rb_graphics r) (rb_id r) (rb_parent r) (rb_T r) (rb_inertia r) (rb_joint r).
(** json.cc:57-79 *)
Definition rb_with_graphics (g : list graphics) (r : rigid_body) :=
  Rb (rb_name r) g (rb_id r) (rb_parent r) (rb_T r) (rb_inertia r) (rb_joint r).
(** json.cc:57-79 *)
Definition rb_with_id (i : Z) (r : rigid_body) :=
  Rb (rb_name r) (rb_graphics r) i (rb_parent r) (rb_T r) (rb_inertia r) (rb_joint r).
(** json.cc:57-79 *)
Definition rb_with_parent (i : Z) (r : rigid_body) :=
  Rb (rb_name r) (rb_graphics r) (rb_id r) i (rb_T r) (rb_inertia r) (rb_joint r).
(** rigid_body.h, set_T_to_parent *)
Definition rb_with_T (T : iso) (r : rigid_body) :=
  Rb (rb_name r) (rb_graphics r) (rb_id r) (rb_parent r) T (rb_inertia r) (rb_joint r).
(** rigid_body.h, set_joint *)
Definition rb_with_joint (j : joint) (r : rigid_body) :=
  Rb (rb_name r) (rb_graphics r) (rb_id r) (rb_parent r) (rb_T r) (rb_inertia r) j.

(** json.cc:47-55, yaml.cc:50-60 *)
Definition enc_rb (r : rigid_body) : val :=
  VObj [("name", VStr (rb_name r)); ("graphics", VArr (map enc_gfx (rb_graphics r)));
        ("id", VInt (rb_id r)); ("id_parent", VInt (rb_parent r));
        ("T_to_parent", enc_iso (rb_T r)); ("inertia", enc_inertia (rb_inertia r));
        ("joint", enc_joint (rb_joint r))].
(** json.cc:57-79 *)
Definition json_dec_rb (v : val) : res rigid_body :=
  bind (opt_field false v "name" get_str (assign rb_with_name) rb_default) (fun r =>
  bind (opt_field false v "graphics" (get_vector (dec_gfx false)) (assign rb_with_graphics) r) (fun r =>
  bind (opt_field false v "id" get_int (assign rb_with_id) r) (fun r =>
  bind (opt_field false v "id_parent" get_int (assign rb_with_parent) r) (fun r =>
  bind (opt_field false v "T_to_parent" dec_iso (assign rb_with_T) r) (fun r =>
  bind (opt_field false v "inertia" (dec_inertia false) (through_setter rb_set_inertia) r) (fun r =>
  opt_field false v "joint" (dec_joint false) (assign rb_with_joint) r)))))).
(** yaml.cc:62-79 *)
Definition yaml_dec_rb (v : val) : res rigid_body :=
  bind (opt_field true v "name" get_str (assign rb_with_name) rb_default) (fun r =>
  bind (opt_field true v "graphics" (get_vector (dec_gfx true)) (assign rb_with_graphics) r) (fun r =>
  bind (opt_field true v "T_to_parent" dec_iso (assign rb_with_T) r) (fun r =>
  bind (opt_field true v "inertia" (dec_inertia true) (through_setter rb_set_inertia) r) (fun r =>
  opt_field true v "joint" (dec_joint true) (assign rb_with_joint) r)))).

(** articulated_body.h:83 and 90: [name] and [graphics] are public members. *)
Definition ab_with_name (s : string) (ab : body) :=
  Body s (ab_graphics ab) (ab_cache ab) (ab_dof ab) (ab_rbs ab) (ab_q ab) (ab_dq ab) (ab_g ab)
       (ab_loads ab) (ab_Tbase ab) (ab_Ibase ab) (ab_anc ab) (ab_sub ab).
(** json.cc:26-45 *)
Definition ab_with_graphics (g : list graphics) (ab : body) :=
  Body (ab_name ab) g (ab_cache ab) (ab_dof ab) (ab_rbs ab) (ab_q ab) (ab_dq ab) (ab_g ab)
       (ab_loads ab) (ab_Tbase ab) (ab_Ibase ab) (ab_anc ab) (ab_sub ab).

(** json.cc:18-24, yaml.cc:18-26 *)
Definition enc_body (ab : body) : val :=
  VObj [("name", VStr (ab_name ab)); ("graphics", VArr (map enc_gfx (ab_graphics ab)));
        ("T_base_to_world", enc_iso (ab_Tbase ab)); ("inertia_base", enc_inertia (ab_Ibase ab));
        ("rigid_bodies", VArr (map enc_rb (ab_rbs ab)))].

(** What a range-based for over a value visits: a scalar JSON value is visited itself, a
    scalar YAML node has no elements.  Simplified: the elements of a YAML map are pairs,
    which [as<RigidBody>()] rejects or reads as an empty description (json.cc:26-45). *)
Definition elements (yaml : bool) (v : val) : list val :=
  match v with
  | VNull => nil
  | VArr l => l
  | VObj l => map snd l
  | v => if yaml then nil else [v]
  end.
(** json.cc:40-43, yaml.cc:42-45 *)
Fixpoint add_all (get : val -> res rigid_body) (l : list val) (ab : body) : res body :=
  match l with
  | nil => Ok ab
  | v :: t =>
      bind (get v) (fun r =>
      bind (called (add_rigid_body r (rb_parent r) ab)) (fun ab => add_all get t ab))
  end.
(** json.cc:26-45 and yaml.cc:28-48, reading links by [get]. *)
Definition dec_body (y : bool) (get : val -> res rigid_body) (v : val) (ab : body) : res body :=
  bind (opt_field y v "name" get_str (assign ab_with_name) ab) (fun ab =>
  bind (opt_field y v "graphics" (get_vector (dec_gfx y)) (assign ab_with_graphics) ab) (fun ab =>
  bind (opt_field y v "T_base_to_world" dec_iso (through_setter set_T_base) ab) (fun ab =>
  bind (opt_field y v "inertia_base" (dec_inertia y) (through_setter set_inertia_base) ab) (fun ab =>
  opt_field y v "rigid_bodies" (fun v => Ok (elements y v)) (add_all get) ab)))).
(** json.cc:26-45 *)
Definition from_json (v : val) (ab : body) : res body := dec_body false json_dec_rb v ab.
(** yaml.cc:28-48 *)
Definition from_yaml (v : val) (ab : body) : res body := dec_body true yaml_dec_rb v ab.

(** nlohmann::json::dump() followed by json::parse(), both external: a number that is
    not finite is written as null; a string that is not valid UTF-8 throws; everything
    else is read back as it was (floating point numbers are written with enough digits). *)
Variable finite : K -> bool.
Variable utf8 : string -> bool.
(** nlohmann dump() rejects invalid UTF-8; used by python/spatial_dyn.cc pickling *)
Fixpoint printable (v : val) : bool :=
  match v with
  | VStr s => utf8 s
  | VArr l => forallb printable l
  | VObj l => forallb (fun kv => utf8 (fst kv) && printable (snd kv)) l
  | _ => true
  end.
(** nlohmann dump() writes null for a double that is not finite *)
Fixpoint nulled (v : val) : val :=
  match v with
  | VNum (Fin k) => if finite k then v else VNull
  | VNum _ => VNull
  | VArr l => VArr (map nulled l)
  | VObj l => VObj (map (fun kv => (fst kv, nulled (snd kv))) l)
  | v => v
  end.
(** dump() followed by parse() *)
Definition text (v : val) : res val := if printable v then Ok (nulled v) else Throw.

(** spatial_dyn.cc:233-237: the pickled text, read back into a new robot; pybind11
    (external) then move-constructs the Python object's robot from the returned one. *)
Definition pickled (ab : body) (mem : cache) : res body :=
  bind (text (enc_body ab)) (fun v =>
  bind (from_json v (body_new EmptyString mem)) (fun ab => Ok (fst (body_move ab)))).

End Json.
