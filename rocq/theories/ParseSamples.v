(** Robots used in the examples for C32 and C33. *)
From Coq Require Import List Arith ZArith Bool String QArith Qcanon.
From Verif Require Import Scalar Base Spatial SpecGeo Joint Body Ops Specs Json SpecParse Instances Samples ParseProofs.
Import ListNotations.

(** Placements written as twelve numbers. *)
Definition arr_iso (T : @iso QcScal) : @val QcScal :=
  enc_list [vx (r0 (rot T)); vy (r0 (rot T)); vz (r0 (rot T)); vx (r1 (rot T)); vy (r1 (rot T)); vz (r1 (rot T));
            vx (r2 (rot T)); vy (r2 (rot T)); vz (r2 (rot T)); vx (tra T); vy (tra T); vz (tra T)].
Definition read_iso (v : @val QcScal) : res (@iso QcScal) :=
  bind (dec_list 12 v) (fun l => match l with
    | [a; b; c; d; e; f; g; h; i; x; y; z] => Ok (Iso (M3 (V3 a b c) (V3 d e f) (V3 g h i)) (V3 x y z))
    | _ => Throw end).
Definition red_ball : @graphics QcScal :=
  Gfx "ball" q_iso (Geo GSphere (QV 9 9 9) (qz 2) (qz 5) "unused.obj") (Mat "red" (QV 1 0 0) (qz 1) "").
Definition bounded_link : @rigid_body QcScal :=
  Rb "e" [red_ball] 0 0 q_iso (q_inertia 2)
     (Jnt JPz (subspace_of JPz) (Fin (qz (-1))) (Fin (qz 1)) (Fin (qz 2)) (Fin (qz 3)) (qz 1) (qz 0) (qz 2)).
Definition bounded : list (@op QcScal) :=
  [OSetBase q_iso; OSetIbase (q_inertia 4); OAdd bounded_link (-1); OAdd bounded_link 0; OAdd bounded_link 0;
   OSetQ [qz 1; qz 2; qz 3]].
Definition bounded_robot : @body QcScal := robot_after bounded.

Lemma arr_iso_ok T : read_iso (arr_iso T) = Ok T.
Proof. destruct T as [[[? ? ?] [? ? ?] [? ? ?]] [? ? ?]]. reflexivity. Qed.
Lemma arr_text T : printable (fun _ => true) (arr_iso T) = true /\ read_iso (nulled (fun _ => true) (arr_iso T)) = Ok T.
Proof. destruct T as [[[? ? ?] [? ? ?] [? ? ?]] [? ? ?]]. split; reflexivity. Qed.
Lemma bounded_links : ab_rbs bounded_robot =
  map (fun ip => Rb "e" [red_ball] (fst ip) (snd ip) q_iso (q_inertia 2) (rb_joint bounded_link)) [(0, -1); (1, 0); (2, 0)]%Z.
Proof. reflexivity. Qed.
Lemma gfx_links {S : Scal} g (ab : body) : ab_rbs (ab_with_graphics g ab) = ab_rbs ab.
Proof. reflexivity. Qed.
Lemma bounded_storable : storable (ab_with_graphics [red_ball] bounded_robot).
Proof.
  constructor.
  - split; reflexivity.
  - rewrite gfx_links, bounded_links. repeat constructor.
  - rewrite gfx_links, bounded_links. repeat constructor.
Qed.
Lemma bounded_reached : reached solve0 pinv0 bounded bounded_robot.
Proof. apply robot_after_reached. reflexivity. Qed.

Lemma bounded_plain : storable bounded_robot.
Proof. exact (Build_storable bounded_robot (st_base _ bounded_storable) (st_inertia _ bounded_storable) (st_joint _ bounded_storable)). Qed.

Definition base_mass (r : res (@body QcScal)) : option (Z * Z) :=
  match r with Ok ab => Some (frac (imass (ab_Ibase ab))) | _ => None end.
Definition parents (r : res (@body QcScal)) : option (list Z) :=
  match r with Ok ab => Some (map rb_parent (ab_rbs ab)) | _ => None end.
Lemma base_lost : base_mass (Ok bounded_robot) = Some (4, 1)%Z /\
  base_mass (pickled arr_iso read_iso (fun _ => true) (fun _ => true) bounded_robot (junk (qz 1))) = Some (1, 1)%Z.
Proof. split; vm_compute; reflexivity. Qed.
Lemma parents_lost : parents (Ok bounded_robot) = Some [-1; 0; 0]%Z /\
  parents (from_yaml read_iso (enc_body arr_iso bounded_robot) (body_new "" (junk (qz 1)))) = Some [-1; -1; -1]%Z.
Proof. split; vm_compute; reflexivity. Qed.
