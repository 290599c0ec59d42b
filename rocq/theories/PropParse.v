(** C32, C33 *)
From Coq Require Import List Arith ZArith Bool String QArith Qcanon.
From Verif Require Import Scalar Base Spatial SpecGeo Joint Body Ops Specs Json SpecParse Instances Samples ParseProofs ParseSamples.
Import ListNotations.

(** C32.  The robot, with any graphics, after any history; [near] is what ctrl_utils'
    conversion makes of a placement.  Any scalars, doubles included. *)
Theorem C32_roundtrip : forall {S : Scal} (near : iso -> iso) (enc_iso : iso -> val) (dec_iso : val -> res iso)
    solve pinv ab0 g h name mem, reached solve pinv h ab0 ->
  let ab := ab_with_graphics g ab0 in storable ab ->
  Forall (fun T => dec_iso (enc_iso T) = Ok (near T)) (placements ab) ->
  exists ab', from_json dec_iso (enc_body enc_iso ab) (body_new name mem) = Ok ab' /\
    redescribed near (fun p => p) ab ab' /\ ab_Ibase ab' = ab_Ibase ab /\ same_tree ab ab'.
Proof. exact @json_memory. Qed.
Print Assumptions C32_roundtrip.

(** A joint survives exactly if its own setters accept its values; otherwise the decoder
    throws or returns a joint that is valid.  (JSON and YAML.) *)
Theorem C32_joint : forall {S : Scal} yaml (j : joint),
  (dec_joint yaml (enc_joint j) = Ok j <-> joint_ok j) /\
  (dec_joint yaml (enc_joint j) = Throw \/ exists j', dec_joint yaml (enc_joint j) = Ok j' /\ joint_ok j').
Proof. exact @joint_memory. Qed.
Print Assumptions C32_joint.
(** Joints made by setter calls are such. *)
Theorem C32_joint_built : forall {S : Scal} ops j, klt k0 k0 = false ->
  joint_run ops joint_default = Some j -> joint_ok j.
Proof. exact @joint_built. Qed.
Print Assumptions C32_joint_built.

(** Through text (pickling): robots whose numbers, joint limits included, are all finite
    are read back, except that the base's inertia is replaced by a 1 kg point mass. *)
Theorem C32_pickle : forall {S : Scal} (near : iso -> iso) (enc_iso : iso -> val) (dec_iso : val -> res iso)
    solve pinv (finite : K -> bool) (utf8 : string -> bool), Forall (fun s => utf8 s = true) own_strings ->
  forall ab0 g h mem, reached solve pinv h ab0 ->
  let ab := ab_with_graphics g ab0 in storable ab ->
  robot_in (fun k => finite k = true) (fun s => utf8 s = true) ab ->
  Forall (fun r => limits_in (fun k => finite k = true) (rb_joint r)) (ab_rbs ab) ->
  Forall (fun T => printable utf8 (enc_iso T) = true /\ dec_iso (nulled finite (enc_iso T)) = Ok (near T)) (placements ab) ->
  exists ab', pickled enc_iso dec_iso finite utf8 ab mem = Ok ab' /\
    redescribed near (fun p => p) ab ab' /\ same_tree ab ab' /\ ab_Ibase ab' = inertia_flat k1 v3zero k0 k0 k0 k0 k0 k0.
Proof. exact @pickle_ok. Qed.
Print Assumptions C32_pickle.

(** A robot with a limit that is not a finite number, like every joint whose limits were
    not all set, cannot be unpickled. *)
Theorem C32_infinite : forall {S : Scal} (near : iso -> iso) (enc_iso : iso -> val) (dec_iso : val -> res iso)
    solve pinv (finite : K -> bool) (utf8 : string -> bool) ab0 g h mem, reached solve pinv h ab0 ->
  let ab := ab_with_graphics g ab0 in storable ab ->
  robot_in (fun k => finite k = true) (fun _ => True) ab ->
  Exists (fun r => ~ limits_in (fun k => finite k = true) (rb_joint r)) (ab_rbs ab) ->
  Forall (fun T => dec_iso (nulled finite (enc_iso T)) = Ok (near T)) (placements ab) ->
  pickled enc_iso dec_iso finite utf8 ab mem = Throw.
Proof. exact @pickle_throws. Qed.
Print Assumptions C32_infinite.
Theorem C32_default_limits : forall {S : Scal} (P : K -> Prop) t, ~ limits_in P (joint_of t).
Proof. exact (fun S P t H => proj1 H). Qed.
Print Assumptions C32_default_limits.

(** Hypotheses met: a branching robot with a picture; placements written as twelve
    numbers (ParseSamples.v). *)
Example C32_example :
  exists ab', from_json read_iso (enc_body arr_iso (ab_with_graphics [red_ball] bounded_robot)) (body_new "" (junk (qz 1))) = Ok ab' /\
    redescribed (fun T => T) (fun p => p) (ab_with_graphics [red_ball] bounded_robot) ab' /\
    ab_Ibase ab' = ab_Ibase (ab_with_graphics [red_ball] bounded_robot) /\
    same_tree (ab_with_graphics [red_ball] bounded_robot) ab'.
Proof.
  apply (C32_roundtrip (fun T => T) arr_iso read_iso solve0 pinv0 bounded_robot [red_ball] bounded).
  - exact bounded_reached.
  - exact bounded_storable.
  - apply Forall_forall. intros. apply arr_iso_ok.
Qed.
Example C32_pickle_example :
  exists ab', pickled arr_iso read_iso (fun _ => true) (fun _ => true) (ab_with_graphics [red_ball] bounded_robot) (junk (qz 1)) = Ok ab' /\
    redescribed (fun T => T) (fun p => p) (ab_with_graphics [red_ball] bounded_robot) ab' /\
    same_tree (ab_with_graphics [red_ball] bounded_robot) ab' /\ ab_Ibase ab' = inertia_flat (qz 1) v3zero k0 k0 k0 k0 k0 k0.
Proof.
  apply (C32_pickle (fun T => T) arr_iso read_iso solve0 pinv0 (fun _ => true) (fun _ => true)
           ltac:(repeat constructor) bounded_robot [red_ball] bounded).
  - exact bounded_reached.
  - exact bounded_storable.
  - repeat split; try (apply Forall_forall; intros; repeat split; try (apply Forall_forall; intros; repeat split)).
  - rewrite gfx_links, bounded_links. repeat constructor.
  - apply Forall_forall. intros T _. apply arr_text.
Qed.
(** Unpickling does not preserve the robot: the base of this one weighs 4 kg. *)
Theorem C32_pickle_refuted : exists ab, reached solve0 pinv0 bounded ab /\ storable ab /\
  base_mass (Ok ab) = Some (4, 1)%Z /\
  base_mass (pickled arr_iso read_iso (fun _ => true) (fun _ => true) ab (junk (qz 1))) = Some (1, 1)%Z.
Proof. exact (ex_intro _ bounded_robot (conj bounded_reached (conj bounded_plain base_lost))). Qed.
Print Assumptions C32_pickle_refuted.
Example C32_infinite_example :
  pickled arr_iso read_iso (fun _ => true) (fun _ => true) (robot_after build) (junk (qz 1)) = Throw.
Proof. vm_compute. reflexivity. Qed.

(** C33.  YAML: every link ends up attached to the base. *)
Theorem C33_yaml : forall {S : Scal} (near : iso -> iso) (enc_iso : iso -> val) (dec_iso : val -> res iso)
    solve pinv ab0 g h name mem, reached solve pinv h ab0 ->
  let ab := ab_with_graphics g ab0 in storable ab ->
  Forall (fun T => dec_iso (enc_iso T) = Ok (near T)) (placements ab) ->
  exists ab', from_yaml dec_iso (enc_body enc_iso ab) (body_new name mem) = Ok ab' /\
    redescribed near (fun _ => (-1)%Z) ab ab' /\ ab_Ibase ab' = ab_Ibase ab /\
    forall i, (i < ab_dof ab)%nat -> anc_at ab' i = [i] /\ subt_at ab' i = [i].
Proof. exact @yaml_memory. Qed.
Print Assumptions C33_yaml.

(** So a YAML round trip does not preserve the robot. *)
Theorem C33_yaml_refuted : exists ab, reached solve0 pinv0 bounded ab /\ storable ab /\
  parents (Ok ab) = Some [-1; 0; 0]%Z /\
  parents (from_yaml read_iso (enc_body arr_iso ab) (body_new "" (junk (qz 1)))) = Some [-1; -1; -1]%Z.
Proof. exact (ex_intro _ bounded_robot (conj bounded_reached (conj bounded_plain parents_lost))). Qed.
Print Assumptions C33_yaml_refuted.

Example C33_example :
  exists ab', from_yaml read_iso (enc_body arr_iso (ab_with_graphics [red_ball] bounded_robot)) (body_new "" (junk (qz 1))) = Ok ab' /\
    redescribed (fun T => T) (fun _ => (-1)%Z) (ab_with_graphics [red_ball] bounded_robot) ab' /\
    ab_Ibase ab' = ab_Ibase (ab_with_graphics [red_ball] bounded_robot) /\
    forall i, (i < 3)%nat -> anc_at ab' i = [i] /\ subt_at ab' i = [i].
Proof.
  apply (C33_yaml (fun T => T) arr_iso read_iso solve0 pinv0 bounded_robot [red_ball] bounded).
  - exact bounded_reached.
  - exact bounded_storable.
  - apply Forall_forall. intros. apply arr_iso_ok.
Qed.
