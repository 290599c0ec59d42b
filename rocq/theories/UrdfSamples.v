(** Documents used in the examples for C34, C35 and C46. *)
From Coq Require Import List Arith ZArith Bool Ascii String QArith Qcanon Reals Lra.
From Verif Require Import Scalar Base Spatial SpecGeo Joint Body Ops Specs Json Urdf SpecDyn SpecUrdf Instances Samples UrdfProofs UrdfMerge UrdfTop UrdfDefects.
Import ListNotations.
Local Open Scope string_scope.

(** A small number reader. *)
Definition q_of (s : string) : option Qc :=
  if s =? "0" then Some (qz 0) else if s =? "1" then Some (qz 1) else if s =? "2" then Some (qz 2)
  else if s =? "3" then Some (qz 3) else if s =? "-1" then Some (qz (-1)) else None.
Definition b_of (s : string) : option (@bound QcScal) := option_map (fun k => @Fin QcScal k) (q_of s).
(** Vectors of one-digit numbers: "abc" for (a, b, c), "z" for -1. *)
Definition digit (c : Ascii.ascii) : Qc := if Ascii.eqb c "z"%char then qz (-1) else qz (Z.of_nat (Ascii.nat_of_ascii c) - 48).
Definition v_of (n : nat) (s : string) : res (list Qc) :=
  if Nat.eqb (String.length s) n then Ok (map digit (list_ascii_of_string s)) else Throw.
Definition e0 (tag : string) (a : list (string * string)) : xml := Elem tag a nil.
Definition a_link (n m : string) : xml :=
  Elem "link" [("name", n)]
    [Elem "inertial" nil [e0 "origin" [("xyz", "010")]; e0 "mass" [("value", m)];
       e0 "inertia" [("ixx", "1"); ("iyy", "2"); ("izz", "3"); ("ixy", "0"); ("ixz", "1"); ("iyz", "0")]];
     Elem "visual" nil [Elem "geometry" nil [e0 "sphere" [("radius", "1")]]; Elem "material" [("name", "red")] nil]].
Definition a_joint (n ty p c axis xyz : string) : xml :=
  Elem "joint" [("name", n); ("type", ty)]
    [e0 "parent" [("link", p)]; e0 "child" [("link", c)]; e0 "axis" [("xyz", axis)]; e0 "origin" [("xyz", xyz); ("rpy", "001")];
     e0 "limit" [("lower", "-1"); ("upper", "1")]].
(** Links out of order, a fixed joint in the middle, a second root. *)
Definition arm_doc : list xml :=
  [Elem "robot" [("name", "arm")]
     [a_link "tool" "3"; a_link "base" "1"; a_link "flange" "2"; a_link "shoulder" "2"; a_link "stray" "1"; a_link "crumb" "1";
      a_joint "j3" "prismatic" "flange" "tool" "010" "001"; a_joint "j1" "revolute" "base" "shoulder" "001" "011";
      a_joint "j2" "fixed" "shoulder" "flange" "100" "100"; a_joint "j4" "fixed" "stray" "crumb" "100" "000"]].
Definition arm_map : @rmap QcScal := match read_document (S := QcScal) q_of b_of v_of (fun v => v) append "" arm_doc with Ok (_, m, _) => m | _ => fun _ => None end.
Definition arm_names : list string := ["tool"; "base"; "flange"; "shoulder"; "stray"; "crumb"].
Definition loaded_or (r : res (@body QcScal)) : @body QcScal := match r with Ok ab => ab | _ => body_new "" (junk (qz 1)) end.
Lemma read_shape {S : Scal} (r : res (string * @rmap S * list string)) n l :
  match r with Ok (n', _, l') => (n', l') = (n, l) | _ => False end ->
  r = Ok (n, match r with Ok (_, m, _) => m | _ => fun _ => None end, l).
Proof. destruct r as [[[n' m] l']| |]; try contradiction. intros H. injection H as -> ->. reflexivity. Qed.
Lemma arm_read_ok : read_document (S := QcScal) q_of b_of v_of (fun v => v) append "" arm_doc = Ok ("arm", arm_map, arm_names).
Proof. unfold arm_map. apply read_shape. vm_compute. reflexivity. Qed.
Lemma arm_named : ~ In "" arm_names.
Proof. cbn. intuition discriminate. Qed.
Lemma arm_parents : map (parent arm_map) arm_names = ["flange"; ""; "shoulder"; "base"; ""; "stray"].
Proof. vm_compute. reflexivity. Qed.
Lemma arm_parent_base : parent arm_map "base" = "".
Proof. vm_compute. reflexivity. Qed.
Lemma arm_parent_tool : parent arm_map "tool" = "flange".
Proof. vm_compute. reflexivity. Qed.
Lemma arm_root : first_root arm_map arm_names "base".
Proof.
  exists ["tool"], ["flange"; "shoulder"; "stray"; "crumb"].
  split; [reflexivity|]. split; [exact arm_parent_base|]. constructor; [|constructor]. rewrite arm_parent_tool. discriminate.
Qed.
Definition masses_of (m : @rmap QcScal) (l : list string) : list (Z * Z) := map (fun n => frac (imass (rb_inertia (link m n)))) l.
Lemma arm_masses : forall n, below arm_map "base" n -> klt (k0 : @K QcScal) (imass (rb_inertia (link arm_map n))) = true.
Proof.
  intros n B. assert (I : In n arm_names).
  { pose proof (document_dom _ _ _ _ _ _ _ _ _ _ arm_read_ok) as D. induction B as [|n rb p E B IH]; [cbn; auto|]. apply D. congruence. }
  assert (A : forallb (fun n => klt (k0 : @K QcScal) (imass (rb_inertia (link arm_map n)))) arm_names = true) by (vm_compute; reflexivity).
  rewrite forallb_forall in A. auto.
Qed.
Definition arm (simplify : bool) : @body QcScal := loaded_or (LoadModel (S := QcScal) q_of b_of v_of (fun v => v) append (Some arm_doc) "" simplify (junk (qz 1))).
Lemma load_shape r : match r with Ok _ => true | _ => false end = true -> r = Ok (loaded_or r).
Proof. destruct r; cbn; try discriminate. reflexivity. Qed.
Lemma arm_loaded simplify : LoadModel (S := QcScal) q_of b_of v_of (fun v => v) append (Some arm_doc) "" simplify (junk (qz 1)) = Ok (arm simplify).
Proof. unfold arm. apply load_shape. destruct simplify; vm_compute; reflexivity. Qed.
(** What the examples look at. *)
Definition glance (ab : @body QcScal) : list (string * Z * jtype * (Z * Z)) * (Z * Z) :=
  (map (fun rb => (rb_name rb, rb_parent rb, jtyp (rb_joint rb), frac (imass (rb_inertia rb)))) (ab_rbs ab), frac (imass (ab_Ibase ab))).

(** An inertial frame turned by a right angle about z (the rational sine and cosine of 1). *)
Definition turned_link : xml :=
  Elem "link" [("name", "l")]
    [Elem "inertial" nil [e0 "origin" [("rpy", "001")]; e0 "mass" [("value", "1")];
       e0 "inertia" [("ixx", "1"); ("iyy", "2"); ("izz", "3"); ("ixy", "0"); ("ixz", "1"); ("iyz", "0")]]].
Definition turned_flat : option (list (Z * Z)) :=
  match ParseRigidBody (S := QcScal) q_of v_of append "" turned_link with
  | Ok rb => let '(a, b, c, d, e, f) := I_com_flat (rb_inertia rb) in Some (map frac [a; b; c; d; e; f])
  | _ => None
  end.
Definition meant_flat : list (Z * Z) :=
  let '(a, b, c, d, e, f) := I_com_flat (inertia_at (Iso (rpy_rotation (qz 0) (qz 0) (qz 1)) (QV 0 0 0)) (qz 1) (qz 1) (qz 2) (qz 3) (qz 0) (qz 1) (qz 0) : @inertia QcScal) in
  map frac [a; b; c; d; e; f].
Lemma turned_wrong : turned_flat = Some [(2, 1); (1, 1); (3, 1); (0, 1); (0, 1); (-1, 1)]%Z /\
  meant_flat = [(2, 1); (1, 1); (3, 1); (0, 1); (0, 1); (1, 1)]%Z.
Proof. split; vm_compute; reflexivity. Qed.

(** An axis pointing down, over the reals. *)
Definition v_down (n : nat) (s : string) : res (list R) := Ok [0%R; 0%R; (-1)%R].
Definition unit_of (v : @v3 RScal) : @v3 RScal := @V3 RScal (vx v / norm v)%R (vy v / norm v)%R (vz v / norm v)%R.
Definition down_joint : xml :=
  Elem "joint" [("name", "j"); ("type", "revolute")]
    [e0 "parent" [("link", "a")]; e0 "child" [("link", "b")]; e0 "axis" [("xyz", "0 0 -1")]].
Definition two_links : @rmap RScal := rput (rput (fun _ => None) "a" (rb_default, "")) "b" (rb_default, "").
Lemma down_parsed : exists m', @ParseJoint RScal (fun _ => None) (fun _ => None) v_down unit_of down_joint two_links = Ok m'.
Proof.
  unfold ParseJoint, down_joint. cbn -[ParseAxis make_joint].
  destruct (@ParseAxis RScal v_down unit_of _) as [ax| |] eqn:A; cbn -[make_joint]; try (revert A; cbn; discriminate).
  unfold make_joint, set_f_coulomb, set_f_stiction, set_f_viscous. cbn -[axis_type klt k0].
  change (@klt RScal) with Rltb. change (@k0 RScal) with 0%R. rewrite (proj2 (Rltb_ge 0 0)) by lra. cbn. eauto.
Qed.
Lemma down_axis : exists m', @ParseJoint RScal (fun _ => None) (fun _ => None) v_down unit_of down_joint two_links = Ok m' /\
  attaches down_joint "b" /\ turning down_joint /\ @vector RScal v_down down_joint "axis" "xyz" (@V3 RScal 0%R 0%R (-1)%R) /\
  axis_of (rb_joint (link m' "b")) = ex.
Proof.
  destruct down_parsed as (m' & E). exists m'. split; [exact E|].
  assert (T : turning down_joint) by (exists "revolute"; cbn; auto).
  assert (A : attaches down_joint "b") by (split; [reflexivity|left; exact T]).
  assert (V : @vector RScal v_down down_joint "axis" "xyz" (@V3 RScal 0%R 0%R (-1)%R)) by (eexists _, _; repeat split; reflexivity).
  assert (Z : @V3 RScal 0%R 0%R (-1)%R <> @V3 RScal 0%R 0%R 0%R) by (intros Q; injection Q; lra).
  split; [exact A|]. split; [exact T|]. split; [exact V|].
  assert (H : ~ holding down_joint) by (intros (t & Et & I); cbn in Et, I; destruct I as [<-|[]]; discriminate).
  pose proof (axis_right _ _ _ _ (fun v _ => eq_refl (unit_of v)) _ _ _ _ _ E A H V Z) as X. cbn zeta in X. destruct X as [_ X].
  apply (X 1%R ez); [lra|cbn; auto|]. unfold v3scale, ez. cbn. f_equal; ring.
Qed.
(** The outcome of a computation, without its value. *)
Definition code {A} (r : res A) : nat := match r with Ok _ => 0 | Throw => 1 | UB => 2 end.
Lemma code_ub {A} (r : res A) : code r = 2%nat -> r = UB.
Proof. destruct r; try discriminate. reflexivity. Qed.
Lemma code_ok {A} (r : res A) : code r = 0%nat -> exists a, r = Ok a.
Proof. destruct r; try discriminate. eauto. Qed.
Lemma screw (m : @rmap QcScal) : m "base" <> None -> m "tool" <> None ->
  ParseJoint (S := QcScal) q_of b_of v_of (fun v => v) (a_joint "j" "screw" "base" "tool" "100" "000") m = Ok m.
Proof.
  destruct (code_ok (ParseOriginElement (S := QcScal) v_of (a_joint "j" "screw" "base" "tool" "100" "000")) ltac:(vm_compute; reflexivity)) as (T & ET).
  destruct (code_ok (ParseAxis (S := QcScal) v_of (fun v => v) (a_joint "j" "screw" "base" "tool" "100" "000")) ltac:(vm_compute; reflexivity)) as (ax & EA).
  intros B C. unfold ParseJoint. rewrite ET, EA. unfold r_at, a_joint. cbn.
  destruct (m "base"); [|congruence]. cbn. destruct (m "tool") as [[rb pp]|]; [|congruence]. reflexivity.
Qed.
Lemma more_misreadings :
  LoadModel (S := QcScal) q_of b_of v_of (fun v => v) append
    (Some [Elem "robot" [("name", "r")] [a_link "a" "1"; a_link "" "1"; a_joint "j" "fixed" "a" "" "100" "000"]]) "" true (junk (qz 1)) = UB /\
  (exists rb, ParseRigidBody (S := QcScal) q_of v_of append "" (Elem "link" [("name", "frame")] nil) = Ok rb /\ frac (imass (rb_inertia rb)) = (1, 1)%Z) /\
  parent arm_map "stray" = "" /\ below arm_map "stray" "crumb" /\ In "crumb" arm_names /\
  ParseJoint (S := QcScal) q_of b_of v_of (fun v => v) (a_joint "j" "screw" "base" "tool" "100" "000") arm_map = Ok arm_map.
Proof.
  split; [apply code_ub; vm_compute; reflexivity|]. split; [eexists; split; [reflexivity|vm_compute; reflexivity]|].
  split; [vm_compute; reflexivity|]. split; [|split; [cbn; auto 10|]].
  - assert (I : arm_map "crumb" <> None) by (apply (document_dom _ _ _ _ _ _ _ _ _ _ arm_read_ok); cbn; auto 10).
    assert (P : parent arm_map "crumb" = "stray") by (vm_compute; reflexivity).
    pose proof (some_link arm_map "crumb" I) as C. rewrite P in C. eapply below_child; [exact C|constructor].
  - apply screw; apply (document_dom _ _ _ _ _ _ _ _ _ _ arm_read_ok); cbn; auto 10.
Qed.
