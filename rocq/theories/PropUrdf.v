(** C34, C35, C46.  The oracles: [to_k], [to_bound] and [decode] read numbers, limits and
    vectors from attribute texts, [normalized] scales a vector to unit length, [join] joins
    file names. *)
From Coq Require Import List Arith ZArith Bool String Reals Lra.
From Verif Require Import Scalar Base Spatial SpecGeo Joint Body Kin Ops Specs SpecCache Json Urdf SpecDyn SpecUrdf Instances Samples UrdfProofs UrdfMerge UrdfTop UrdfDefects UrdfSamples.
Import ListNotations.
Local Open Scope string_scope.

(** C34.  What is read from the document: every <link>, with its inertia and pictures; for
    every link the last <joint> that attaches it, with its parent, origin, kind, limits and
    friction; links that no <joint> attaches are roots. *)
Theorem C34_reading : forall {S : Scal} (to_k : string -> option K) (to_bound : string -> option bound) (decode : nat -> string -> res (list K))
    (normalized : v3 -> v3) (join : string -> string -> string) {L : ScalLaws S}
    path doc r name m names,
  read_document to_k to_bound decode normalized join path doc = Ok (name, m, names) ->
  first_kid doc "robot" = Some r ->
  attr r "name" = Some name /\
  Forall2 (fun x n => attr x "name" = Some n /\ exists rb, ParseRigidBody to_k decode join path x = Ok rb /\
             rb_inertia (link m n) = rb_inertia rb /\ rb_graphics (link m n) = rb_graphics rb) (kids_of (x_kids r) "link") names /\
  (forall a x b c, kids_of (x_kids r) "joint" = (a ++ x :: b)%list -> attaches x c -> (forall y, In y b -> ~ attaches y c) ->
     names_link x "parent" = Some (parent m c) /\ origin decode x (rb_T (link m c)) /\
     ((holding x /\ rb_joint (link m c) = joint_of JUndef) \/ (~ holding x /\ as_written to_k to_bound x (rb_joint (link m c))))) /\
  (forall c, In c names -> (forall x, In x (kids_of (x_kids r) "joint") -> ~ attaches x c) ->
     parent m c = "" /\ rb_T (link m c) = iso_id /\ rb_joint (link m c) = joint_default).
Proof. exact (fun S a b c d e L => @c34_reading S a b c d e L). Qed.
Print Assumptions C34_reading.
(** And the result is a set of links with distinct names whose parents are links, with
    rigid placements and symmetric rotational inertias. *)
Theorem C34_document : forall {S : Scal} (to_k : string -> option K) (to_bound : string -> option bound) (decode : nat -> string -> res (list K))
    (normalized : v3 -> v3) (join : string -> string -> string) {L : ScalLaws S}
    path doc name m names,
  read_document to_k to_bound decode normalized join path doc = Ok (name, m, names) -> ~ In "" names ->
  links_ok m names /\
  forall n, In n names -> rigid (rb_T (link m n)) /\ (klt k1 k0 = false -> klt (imass (rb_inertia (link m n))) k0 = false) /\
    isym (rb_inertia (link m n)).
Proof. exact (fun S a b c d e L => @c34_document S a b c d e L). Qed.
Print Assumptions C34_document.

(** The order: exactly the links below the root, each once, parents first. *)
Theorem C34_order : forall {S : Scal} (m : rmap) names root, links_ok m names -> first_root m names root ->
  exists l, sort_links m names = Ok (root :: l) /\ NoDup (root :: l) /\
    (forall n, In n (root :: l) <-> below m root n) /\ parents_first m (root :: l).
Proof. exact @order. Qed.
Print Assumptions C34_order.

(** Loading accepts every document that could be read, if it has a root. *)
Theorem C34_accepts : forall {S : Scal} (to_k : string -> option K) (to_bound : string -> option bound) (decode : nat -> string -> res (list K))
    (normalized : v3 -> v3) (join : string -> string -> string) {L : ScalLaws S}
    path doc name m names simplify mem,
  read_document to_k to_bound decode normalized join path doc = Ok (name, m, names) -> ~ In "" names ->
  masses_add -> klt k1 k0 = false -> (exists n, In n names /\ parent m n = "") ->
  exists ab, LoadModel to_k to_bound decode normalized join (Some doc) path simplify mem = Ok ab /\ ab_name ab = name.
Proof. exact (fun S a b c d e L path doc name m names si mem R N A => @load_accepts S (fun _ x => x) (fun x _ => (x, true)) a b c d e path doc name m names R N L si mem A). Qed.
Print Assumptions C34_accepts.
(** AddRigidBody rejects no link, for doubles too. *)
Theorem C34_assembles : forall {S : Scal} (m : rmap) names root simplify name mem, links_ok m names -> first_root m names root -> masses_add ->
  (forall n, below m root n -> klt (imass (rb_inertia (link m n))) k0 = false) ->
  exists ab, assemble simplify m names (body_new name mem) = Ok ab.
Proof. exact (fun S => @c34_accepts S (fun _ x => x) (fun x _ => (x, true))). Qed.
Print Assumptions C34_assembles.
Theorem C34_doubles : forall sn cs tr, @masses_add (F64of sn cs tr).
Proof. exact masses_add_f64. Qed.
Print Assumptions C34_doubles.

(** The links of the robot: without merging all those below the root, with merging those
    whose joint moves. *)
Theorem C34_links : forall {S : Scal} (to_k : string -> option K) (to_bound : string -> option bound) (decode : nat -> string -> res (list K))
    (normalized : v3 -> v3) (join : string -> string -> string) {L : ScalLaws S}
    solve pinv path doc name m names root simplify mem ab,
  read_document to_k to_bound decode normalized join path doc = Ok (name, m, names) -> ~ In "" names -> first_root m names root ->
  LoadModel to_k to_bound decode normalized join (Some doc) path simplify mem = Ok ab ->
  NoDup (link_names ab) /\
  (forall n, In n (link_names ab) <-> n <> root /\ below m root n /\ (simplify = true -> ~ fixed_joint (link m n))) /\
  (forall i n, position (link_names ab) i n -> rb_joint (nth i (ab_rbs ab) rb_default) = rb_joint (link m n)) /\
  (simplify = false -> sort_links m names = Ok (root :: link_names ab) /\ made_of m root (link_names ab) ab) /\
  ab_name ab = name /\ built solve pinv ab.
Proof. exact (fun S a b c d e L sv pv path doc name m names root si mem ab R N F => @load_links S sv pv a b c d e path doc name m names R N L root si mem ab F). Qed.
Print Assumptions C34_links.
(** Every remaining link is, in every configuration, where the document puts it. *)
Theorem C34_poses : forall {S : Scal} (to_k : string -> option K) (to_bound : string -> option bound) (decode : nat -> string -> res (list K))
    (normalized : v3 -> v3) (join : string -> string -> string) {L : ScalLaws S} {Q : EqSound S}
    path doc name m names root simplify mem ab qs,
  read_document to_k to_bound decode normalized join path doc = Ok (name, m, names) -> ~ In "" names -> first_root m names root ->
  LoadModel to_k to_bound decode normalized join (Some doc) path simplify mem = Ok ab ->
  ab_Tbase ab = rb_T (link m root) /\
  forall i n, position (link_names ab) i n -> exists ab2 T, set_q (map qs (link_names ab)) ab = Ret ab2 tt /\
    outcome (q_T_to_world (Z.of_nat i) ab2) = Ok T /\ placed m root qs n T.
Proof. exact (fun S a b c d e L Q path doc name m names root si mem ab qs R N F E => @load_poses S (fun _ x => x) (fun x _ => (x, true)) a b c d e path doc name m names R N L root si mem ab F E Q qs). Qed.
Print Assumptions C34_poses.
(** With merging, the base and every link have the mass, momentum and pictures of all links
    rigidly attached to them. *)
Theorem C34_bodies : forall {S : Scal} (to_k : string -> option K) (to_bound : string -> option bound) (decode : nat -> string -> res (list K))
    (normalized : v3 -> v3) (join : string -> string -> string) {L : ScalLaws S} {P : PosLaws S}
    path doc name m names root mem ab,
  read_document to_k to_bound decode normalized join path doc = Ok (name, m, names) -> ~ In "" names -> first_root m names root ->
  LoadModel to_k to_bound decode normalized join (Some doc) path true mem = Ok ab ->
  (forall n, below m root n -> klt k0 (imass (rb_inertia (link m n))) = true) ->
  (exists g, rigid_group m root root g /\ same_body (ab_Ibase ab) (ab_graphics ab) m g) /\
  (forall i n, position (link_names ab) i n -> exists g, rigid_group m root n g /\
     same_body (rb_inertia (nth i (ab_rbs ab) rb_default)) (rb_graphics (nth i (ab_rbs ab) rb_default)) m g).
Proof. exact (fun S a b c d e L P path doc name m names root mem ab R N F E => @load_bodies S (fun _ x => x) (fun x _ => (x, true)) a b c d e path doc name m names R N L root true mem ab F E P eq_refl). Qed.
Print Assumptions C34_bodies.
(** No mass is lost or gained. *)
Theorem C34_mass : forall {S : Scal} (to_k : string -> option K) (to_bound : string -> option bound) (decode : nat -> string -> res (list K))
    (normalized : v3 -> v3) (join : string -> string -> string) {L : ScalLaws S}
    path doc name m names root simplify mem ab l,
  read_document to_k to_bound decode normalized join path doc = Ok (name, m, names) -> ~ In "" names -> first_root m names root ->
  LoadModel to_k to_bound decode normalized join (Some doc) path simplify mem = Ok ab ->
  NoDup l -> (forall n, In n l <-> below m root n) ->
  kadd (imass (ab_Ibase ab)) (total (map (fun rb => imass (rb_inertia rb)) (ab_rbs ab))) = total (map (fun n => imass (rb_inertia (link m n))) l).
Proof. exact (fun S a b c d e L path doc name m names root si mem ab l R N F E => @load_mass S (fun _ x => x) (fun x _ => (x, true)) a b c d e path doc name m names R N L root si mem ab F E l). Qed.
Print Assumptions C34_mass.

(** Hypotheses met: links out of order, a fixed joint between two moving ones, a second
    root (UrdfSamples.v). *)
Example C34_example_read : read_document (S := QcScal) q_of b_of v_of (fun v => v) append "" arm_doc = Ok ("arm", arm_map, arm_names) /\
  ~ In "" arm_names /\ first_root arm_map arm_names "base" /\
  (forall simplify, LoadModel (S := QcScal) q_of b_of v_of (fun v => v) append (Some arm_doc) "" simplify (junk (qz 1)) = Ok (arm simplify)).
Proof. exact (conj arm_read_ok (conj arm_named (conj arm_root arm_loaded))). Qed.
Example C34_example_links : links_ok arm_map arm_names.
Proof. exact (proj1 (C34_document _ _ _ _ _ _ _ _ _ _ arm_read_ok arm_named)). Qed.
Example C34_example_robot :
  glance (arm true) = ([("shoulder", -1, JRz, (4, 1)); ("tool", 0, JPy, (3, 1))], (1, 1))%Z /\
  glance (arm false) = ([("shoulder", -1, JRz, (2, 1)); ("flange", 0, JUndef, (2, 1)); ("tool", 1, JPy, (3, 1))], (1, 1))%Z.
Proof. split; vm_compute; reflexivity. Qed.
Example C34_example_bodies :
  (exists g, rigid_group arm_map "base" "base" g /\ same_body (ab_Ibase (arm true)) (ab_graphics (arm true)) arm_map g) /\
  (forall i n, position (link_names (arm true)) i n -> exists g, rigid_group arm_map "base" n g /\
     same_body (rb_inertia (nth i (ab_rbs (arm true)) rb_default)) (rb_graphics (nth i (ab_rbs (arm true)) rb_default)) arm_map g).
Proof. exact (C34_bodies _ _ _ _ _ _ _ _ _ _ _ _ _ arm_read_ok arm_named arm_root (arm_loaded true) arm_masses). Qed.
Example C34_example_masses_add : @masses_add QcScal /\ @masses_add RScal.
Proof. exact (conj masses_add_Qc masses_add_R). Qed.

(** C35.  The direction of a joint, over the reals. *)
Theorem C35_axis : forall (to_k : string -> option R) (to_bound : string -> option (@bound RScal)) (decode : nat -> string -> res (list R))
    (normalized : @v3 RScal -> @v3 RScal),
  (forall v : @v3 RScal, v <> @V3 RScal 0%R 0%R 0%R -> normalized v = @V3 RScal (vx v / norm v)%R (vy v / norm v)%R (vz v / norm v)%R) ->
  forall x m m' c v, @ParseJoint RScal to_k to_bound decode normalized x m = Ok m' -> attaches x c -> ~ holding x ->
  @vector RScal decode x "axis" "xyz" v -> v <> @V3 RScal 0%R 0%R 0%R ->
  let u := axis_of (rb_joint (link m' c)) in
  (u = ey <-> (8/10 * norm v < vy v)%R) /\ (u = ez <-> (8/10 * norm v < vz v)%R) /\
  (u = ex <-> (vy v <= 8/10 * norm v /\ vz v <= 8/10 * norm v)%R).
Proof. exact axis_read. Qed.
Print Assumptions C35_axis.
(** So it is the one written exactly for positive multiples of the coordinate axes, and
    axes pointing backwards become the X axis. *)
Theorem C35_directions : forall (to_k : string -> option R) (to_bound : string -> option (@bound RScal)) (decode : nat -> string -> res (list R))
    (normalized : @v3 RScal -> @v3 RScal),
  (forall v : @v3 RScal, v <> @V3 RScal 0%R 0%R 0%R -> normalized v = @V3 RScal (vx v / norm v)%R (vy v / norm v)%R (vz v / norm v)%R) ->
  forall x m m' c v, @ParseJoint RScal to_k to_bound decode normalized x m = Ok m' -> attaches x c -> ~ holding x ->
  @vector RScal decode x "axis" "xyz" v -> v <> @V3 RScal 0%R 0%R 0%R ->
  let u := axis_of (rb_joint (link m' c)) in
  ((exists k, (0 < k)%R /\ v = @v3scale RScal k u) <-> exists k (e : @v3 RScal), (0 < k)%R /\ In e [@ex RScal; ey; ez] /\ v = @v3scale RScal k e) /\
  (forall k (e : @v3 RScal), (0 < k)%R -> In e [@ex RScal; ey; ez] -> v = @v3scale RScal (Ropp k) e -> u = ex).
Proof. exact axis_right. Qed.
Print Assumptions C35_directions.
(** Hypotheses met, and the claim that the axis is the one written refuted: 0 0 -1. *)
Theorem C35_axis_refuted : exists m', @ParseJoint RScal (fun _ => None) (fun _ => None) v_down unit_of down_joint two_links = Ok m' /\
  attaches down_joint "b" /\ turning down_joint /\ @vector RScal v_down down_joint "axis" "xyz" (@V3 RScal 0%R 0%R (-1)%R) /\
  axis_of (rb_joint (link m' "b")) = ex.
Proof. exact down_axis. Qed.
Print Assumptions C35_axis_refuted.

(** Inertial frames are turned the wrong way: the inertia stored is the one written, with
    the frame's rotation transposed. *)
Theorem C35_inertia : forall {S : Scal} (to_k : string -> option K) (to_bound : string -> option bound) (decode : nat -> string -> res (list K))
    (normalized : v3 -> v3) (join : string -> string -> string) {L : ScalLaws S}
    path x i rb, ParseRigidBody to_k decode join path x = Ok rb -> first_kid (x_kids x) "inertial" = Some i ->
  exists T m xx yy zz xy xz yz, origin decode i T /\ number to_k i "mass" "value" m /\
    number to_k i "inertia" "ixx" xx /\ number to_k i "inertia" "iyy" yy /\ number to_k i "inertia" "izz" zz /\
    number to_k i "inertia" "ixy" xy /\ number to_k i "inertia" "ixz" xz /\ number to_k i "inertia" "iyz" yz /\
    rb_inertia rb = inertia_at (Iso (m3tr (rot T)) (tra T)) m xx yy zz xy xz yz.
Proof. exact (fun S a b c d e L => @inertia_read S a c e L). Qed.
Print Assumptions C35_inertia.
Theorem C35_inertia_refuted : turned_flat = Some [(2, 1); (1, 1); (3, 1); (0, 1); (0, 1); (-1, 1)]%Z /\
  meant_flat = [(2, 1); (1, 1); (3, 1); (0, 1); (0, 1); (1, 1)]%Z.
Proof. exact turned_wrong. Qed.
Print Assumptions C35_inertia_refuted.

(** Undefined behaviour: a <joint> without <child>, and a document all of whose links have
    parents. *)
Theorem C35_missing_child : forall {S : Scal} to_k to_bound decode normalized x (m : rmap) p,
  names_link x "parent" = Some p -> m p <> None -> first_kid (x_kids x) "child" = None ->
  ParseJoint to_k to_bound decode normalized x m = UB.
Proof. exact @missing_child. Qed.
Print Assumptions C35_missing_child.
Theorem C35_rootless : forall {S : Scal} (to_k : string -> option K) (to_bound : string -> option bound) (decode : nat -> string -> res (list K))
    (normalized : v3 -> v3) (join : string -> string -> string)
    path doc name m names simplify mem,
  read_document to_k to_bound decode normalized join path doc = Ok (name, m, names) ->
  (forall n, In n names -> parent m n <> "") ->
  LoadModel to_k to_bound decode normalized join (Some doc) path simplify mem = UB.
Proof. exact @load_rootless. Qed.
Print Assumptions C35_rootless.
Example C35_examples :
  ParseJoint (S := QcScal) q_of b_of v_of (fun v => v) (Elem "joint" nil [e0 "parent" [("link", "base")]]) arm_map = UB /\
  LoadModel (S := QcScal) q_of b_of v_of (fun v => v) append
    (Some [Elem "robot" [("name", "loop")] [a_link "a" "1"; a_link "b" "1"; a_joint "j" "fixed" "a" "b" "100" "000"; a_joint "k" "fixed" "b" "a" "100" "000"]])
    "" true (junk (qz 1)) = UB.
Proof. split; apply code_ub; vm_compute; reflexivity. Qed.

(** C46.  A link with the empty name below the root: endless recursion. *)
Theorem C46_empty_name : forall {S : Scal} (to_k : string -> option K) (to_bound : string -> option bound) (decode : nat -> string -> res (list K))
    (normalized : v3 -> v3) (join : string -> string -> string)
    path doc name m names root simplify mem,
  read_document to_k to_bound decode normalized join path doc = Ok (name, m, names) -> first_root m names root -> below m root "" ->
  LoadModel to_k to_bound decode normalized join (Some doc) path simplify mem = UB.
Proof. exact @load_empty. Qed.
Print Assumptions C46_empty_name.
(** A <material> in its place in <visual> changes nothing. *)
Theorem C46_material : forall {S : Scal} to_k decode join path t a kids,
  ParseGraphics to_k decode join path (Elem t a kids) =
  ParseGraphics to_k decode join path (Elem t a (filter (fun y => negb (String.eqb (x_tag y) "material")) kids)).
Proof. exact @visual_material. Qed.
Print Assumptions C46_material.
(** A link without <inertial> weighs one kilogram. *)
Theorem C46_weightless : forall {S : Scal} to_k decode join path x rb,
  ParseRigidBody to_k decode join path x = Ok rb -> first_kid (x_kids x) "inertial" = None ->
  rb_inertia rb = inertia_flat k1 (V3 k0 k0 k0) k0 k0 k0 k0 k0 k0.
Proof. exact @no_inertial. Qed.
Print Assumptions C46_weightless.
(** What hangs below the other roots is dropped. *)
Theorem C46_dropped : forall {S : Scal} (to_k : string -> option K) (to_bound : string -> option bound) (decode : nat -> string -> res (list K))
    (normalized : v3 -> v3) (join : string -> string -> string) {L : ScalLaws S}
    path doc name m names root simplify mem ab n d,
  read_document to_k to_bound decode normalized join path doc = Ok (name, m, names) -> ~ In "" names -> first_root m names root ->
  LoadModel to_k to_bound decode normalized join (Some doc) path simplify mem = Ok ab ->
  In n names -> parent m n = "" -> n <> root -> below m n d -> ~ In d (link_names ab).
Proof. exact (fun S a b c d e L path doc name m names root si mem ab n k R N F E => @load_other_roots S (fun _ x => x) (fun x _ => (x, true)) a b c d e path doc name m names R N L root si mem ab F E n k). Qed.
Print Assumptions C46_dropped.
(** Without merging, a fixed joint is a degree of freedom without direction. *)
Theorem C46_fixed : forall {S : Scal} (to_k : string -> option K) (to_bound : string -> option bound) (decode : nat -> string -> res (list K))
    (normalized : v3 -> v3) (join : string -> string -> string) {L : ScalLaws S}
    path doc name m names root mem ab n,
  read_document to_k to_bound decode normalized join path doc = Ok (name, m, names) -> ~ In "" names -> first_root m names root ->
  LoadModel to_k to_bound decode normalized join (Some doc) path false mem = Ok ab ->
  n <> root -> below m root n -> fixed_joint (link m n) ->
  exists i, (i < ab_dof ab)%nat /\ position (link_names ab) i n /\ jtyp (rb_joint (nth i (ab_rbs ab) rb_default)) = JUndef.
Proof. exact (fun S a b c d e L path doc name m names root mem ab n R N F E => @load_fixed S (fun _ x => x) (fun x _ => (x, true)) a b c d e path doc name m names R N L root false mem ab F E n eq_refl). Qed.
Print Assumptions C46_fixed.
(** Joints of other types are ignored. *)
Theorem C46_unknown_type : forall {S : Scal} to_k to_bound decode normalized x (m m' : rmap),
  ParseJoint to_k to_bound decode normalized x m = Ok m' -> ~ joins x -> m' = m.
Proof. exact @unknown_type. Qed.
Print Assumptions C46_unknown_type.
(** From Python the base's inertia is lost. *)
Theorem C46_python : forall {S : Scal} (to_k : string -> option K) (to_bound : string -> option bound) (decode : nat -> string -> res (list K))
    (normalized : v3 -> v3) (join : string -> string -> string)
    doc path simplify mem ab, LoadModel to_k to_bound decode normalized join doc path simplify mem = Ok ab ->
  exists ab', py_load_model to_k to_bound decode normalized join doc path simplify mem = Ok ab' /\
    ab_Ibase ab' = inertia_flat k1 (V3 k0 k0 k0) k0 k0 k0 k0 k0 k0 /\ ab_rbs ab' = ab_rbs ab.
Proof. exact @python_base. Qed.
Print Assumptions C46_python.
Example C46_examples :
  LoadModel (S := QcScal) q_of b_of v_of (fun v => v) append
    (Some [Elem "robot" [("name", "r")] [a_link "a" "1"; a_link "" "1"; a_joint "j" "fixed" "a" "" "100" "000"]]) "" true (junk (qz 1)) = UB /\
  (exists rb, ParseRigidBody (S := QcScal) q_of v_of append "" (Elem "link" [("name", "frame")] nil) = Ok rb /\ frac (imass (rb_inertia rb)) = (1, 1)%Z) /\
  parent arm_map "stray" = "" /\ below arm_map "stray" "crumb" /\ In "crumb" arm_names /\
  ParseJoint (S := QcScal) q_of b_of v_of (fun v => v) (a_joint "j" "screw" "base" "tool" "100" "000") arm_map = Ok arm_map.
Proof. exact more_misreadings. Qed.
