(** C25, C26 (joints), C27 *)
From Coq Require Import List ZArith String Reals Lra.
From Verif Require Import Scalar Base Spatial SpecGeo Joint Body Specs Instances JointProofs.
Import ListNotations.

(** C25.  Any list of setter calls (rejected ones included) on a new joint. *)
Theorem C25_limits : forall ops, exists j, joint_run ops (@joint_default RScal) = Some j /\
  bound_le (jqmin j) (jqmax j) /\ bound_le (@Fin RScal 0%R) (jdqmax j) /\
  bound_le (@Fin RScal 0%R) (jfqmax j) /\
  (0 <= jcoulomb j)%R /\ (0 <= jviscous j)%R /\ (0 <= jstiction j)%R /\ jsub j = subspace_of (jtyp j).
Proof. exact joint_default_all. Qed.
Print Assumptions C25_limits.

(** A setter that throws leaves the joint as it was (any scalars, doubles included);
    no setter call is undefined behaviour. *)
Theorem C25_rejected : forall {S : Scal} o (j : joint),
  match joint_call o j with Ret _ _ => True | Exn j' => j' = j | Bad => False end.
Proof. exact @joint_call_outcome. Qed.
Print Assumptions C25_rejected.

(** When does a setter reject its argument? *)
Theorem C25_accepts : forall (j : @joint RScal) x y,
  (set_q_min x j = Exn j <-> ~ bound_le x (jqmax j)) /\ (set_q_max x j = Exn j <-> ~ bound_le (jqmin j) x) /\
  (set_q_limits x y j = Exn j <-> ~ bound_le x y) /\
  (set_dq_max x j = Exn j <-> ~ bound_le (@Fin RScal 0%R) x) /\ (set_fq_max x j = Exn j <-> ~ bound_le (@Fin RScal 0%R) x) /\
  forall c : @K RScal, (set_f_coulomb c j = Exn j <-> (c < 0)%R) /\ (set_f_viscous c j = Exn j <-> (c < 0)%R) /\
            (set_f_stiction c j = Exn j <-> (c < 0)%R).
Proof. exact joint_accepts. Qed.
Print Assumptions C25_accepts.

(** The motion subspace is the unit motion of the joint's type, after any calls. *)
Theorem C25_subspace : forall {S : Scal} ops j, joint_run ops joint_default = Some j ->
  jsub j = match jtyp j with
           | JRx => Mot v3zero (V3 k1 k0 k0) | JRy => Mot v3zero (V3 k0 k1 k0) | JRz => Mot v3zero (V3 k0 k0 k1)
           | JPx => Mot (V3 k1 k0 k0) v3zero | JPy => Mot (V3 k0 k1 k0) v3zero | JPz => Mot (V3 k0 k0 k1) v3zero
           | JUndef => Mot v3zero v3zero
           end.
Proof. exact @joint_run_unit. Qed.
Print Assumptions C25_subspace.

(** With doubles the first statement fails for NaN: a NaN limit is accepted. *)
Theorem C25_nan_refuted : exists j, joint_run [JSetQMin (@Fin F64 SpecFloat.S754_nan)] (@joint_default F64) = Some j /\
  @ble_spec F64 (jqmin j) (jqmax j) = false.
Proof. exact nan_limit. Qed.
Print Assumptions C25_nan_refuted.

Example C25_example : exists j,
  joint_run [JSetType JRz; JSetQLim (@Fin RScal (-1)%R) (@Fin RScal 1%R); JSetQMin (@Fin RScal 2%R); JSetDqMax (@Fin RScal 3%R)]
            (@joint_default RScal) = Some j /\
  jqmin j = @Fin RScal (-1)%R /\ jqmax j = @Fin RScal 1%R /\ jtyp j = JRz.
Proof. exact joint_run_example. Qed.

(** C26, joints. *)
Theorem C26_joint : forall {S : Scal} {L : ScalLaws S} (j : joint) q,
  rigid (T_joint j q) /\ T_joint j k0 = iso_id /\
  (jsub j = subspace_of (jtyp j) -> mact (T_joint j q) (jsub j) = jsub j).
Proof. exact (fun S L j q => conj (T_joint_rigid j q) (conj (T_joint_0 j) (T_joint_axis j q))). Qed.
Print Assumptions C26_joint.

(** Over the reals, joint motions of one joint compose by adding positions. *)
Theorem C26_one_parameter : forall (j : @joint RScal) p q,
  iso_mul (T_joint j p) (T_joint j q) = T_joint j (p + q)%R.
Proof. exact T_joint_add. Qed.
Print Assumptions C26_one_parameter.

Example C26_example : jsub (@joint_of RScal JRz) = subspace_of (jtyp (@joint_of RScal JRz)) /\
  T_joint (@joint_of RScal JPx) 2%R <> iso_id.
Proof. split; [reflexivity|]. intros E. apply (f_equal (fun T => vx (tra T))) in E. cbn in E. lra. Qed.

(** C27 *)
Theorem C27_joint_roundtrip : forall t, jtype_of_string (token (jtype_to_string t)) = Ok t.
Proof. exact jtype_roundtrip. Qed.
Print Assumptions C27_joint_roundtrip.
Theorem C27_joint_parse : forall s,
  (forall t, jtype_of_string s = Ok t <-> same_ci s (jtype_to_string t)) /\
  ((forall t, ~ same_ci s (jtype_to_string t)) <-> jtype_of_string s = Throw).
Proof. exact jtype_parse_all. Qed.
Print Assumptions C27_joint_parse.
Theorem C27_geometry_roundtrip : forall t, gtype_of_string (token (gtype_to_string t)) = Ok t.
Proof. exact gtype_roundtrip. Qed.
Print Assumptions C27_geometry_roundtrip.
Theorem C27_geometry_parse : forall s,
  (forall t, gtype_of_string s = Ok t <-> same_ci s (gtype_to_string t)) /\
  ((forall t, ~ same_ci s (gtype_to_string t)) <-> gtype_of_string s = Throw).
Proof. exact gtype_parse_all. Qed.
Print Assumptions C27_geometry_parse.

Example C27_example : jtype_of_string "Rx" = Ok JRx /\ jtype_of_string "UNDEFINED" = Ok JUndef /\
  jtype_of_string "revolute" = Throw /\ gtype_of_string "sPhErE" = Ok GSphere /\ gtype_of_string "" = Throw.
Proof. repeat split; reflexivity. Qed.
