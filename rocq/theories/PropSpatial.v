(** C10, C11: exact arithmetic ([ScalLaws]); the reals and the rationals are
    instances (Instances.v). *)
From Coq Require Import List ZArith.
From Verif Require Import Scalar Spatial SpecGeo SpatialProofs Instances Samples.

(** C10 *)
Theorem C10_compose : forall {S : Scal} {L : ScalLaws S} T1 T2 m f, rigid T1 ->
  mact (iso_mul T1 T2) m = mact T1 (mact T2 m) /\ fact (iso_mul T1 T2) f = fact T1 (fact T2 f).
Proof. exact (fun S L T1 T2 m f H => conj (mact_mul T1 T2 m H) (fact_mul T1 T2 f H)). Qed.
Print Assumptions C10_compose.

Theorem C10_identity : forall {S : Scal} {L : ScalLaws S} m f, mact iso_id m = m /\ fact iso_id f = f.
Proof. exact (fun S L m f => conj (mact_id m) (fact_id f)). Qed.
Print Assumptions C10_identity.

Theorem C10_inverse : forall {S : Scal} {L : ScalLaws S} T m f, rigid T ->
  (mact (iso_inv T) (mact T m) = m /\ mact T (mact (iso_inv T) m) = m) /\
  (fact (iso_inv T) (fact T f) = f /\ fact T (fact (iso_inv T) f) = f) /\
  rigid (iso_inv T) /\ iso_mul T (iso_inv T) = iso_id /\ iso_mul (iso_inv T) T = iso_id.
Proof.
  exact (fun S L T m f H => conj (conj (mact_inv_l T m H) (mact_inv_r T m H))
    (conj (conj (fact_inv_l T f H) (fact_inv_r T f H))
          (conj (rigid_inv T H) (conj (iso_inv_r T H) (iso_inv_l T H))))).
Qed.
Print Assumptions C10_inverse.

Theorem C10_power : forall {S : Scal} {L : ScalLaws S} T m f, rigid T ->
  mdot (mact T m) (fact T f) = mdot m f.
Proof. exact @mdot_act. Qed.
Print Assumptions C10_power.

Theorem C10_cross : forall {S : Scal} {L : ScalLaws S} T a b f, rigid T ->
  mact T (mcross a b) = mcross (mact T a) (mact T b) /\
  fact T (fcross a f) = fcross (mact T a) (fact T f).
Proof. exact (fun S L T a b f H => conj (mact_cross T a b H) (fact_cross T a f H)). Qed.
Print Assumptions C10_cross.

Theorem C10_dual : forall {S : Scal} {L : ScalLaws S} a b f,
  mdot (mcross a b) f = kopp (mdot b (fcross a f)).
Proof. exact @mcross_dual. Qed.
Print Assumptions C10_dual.

Theorem C10_jacobi : forall {S : Scal} {L : ScalLaws S} a b c,
  madd (mcross a (mcross b c)) (madd (mcross b (mcross c a)) (mcross c (mcross a b))) = mzero /\
  mcross a b = mopp (mcross b a).
Proof. exact (fun S L a b c => conj (mcross_jacobi a b c) (mcross_anti a b)). Qed.
Print Assumptions C10_jacobi.

(** The coefficient-wise cross products are the textbook ones. *)
Theorem C10_cross_textbook : forall {S : Scal} {L : ScalLaws S} a b f,
  mcross a b = Mot (v3add (v3cross (mlin a) (mang b)) (v3cross (mang a) (mlin b)))
                   (v3cross (mang a) (mang b)) /\
  fcross a f = Frc (v3cross (mang a) (flin f))
                   (v3add (v3cross (mlin a) (flin f)) (v3cross (mang a) (fang f))).
Proof. exact (fun S L a b f => conj (mcross_vec a b) (fcross_vec a f)). Qed.
Print Assumptions C10_cross_textbook.

(** The Translation overloads are the transforms without rotation. *)
Theorem C10_translation : forall {S : Scal} {L : ScalLaws S} t m f J,
  mact_tra t m = mact (Iso m3id t) m /\ fact_tra t f = fact (Iso m3id t) f /\ iact_tra t J = iact (Iso m3id t) J.
Proof. exact (fun S L t m f J => conj (mact_tra_iso t m) (conj (fact_tra_iso t f) (iact_tra_iso t J))). Qed.
Print Assumptions C10_translation.

(** A proper rigid transform that is neither the identity nor a translation. *)
Example C10_example : rigid q_iso /\ rot q_iso <> m3id.
Proof. split; [exact q_iso_rigid|]. intros E. apply (f_equal (fun R => keq (vx (r0 R)) k1)) in E. vm_compute in E. discriminate. Qed.

(** C11 *)
Theorem C11_momentum : forall {S : Scal} {L : ScalLaws S} J m, imul J m = momentum J m.
Proof. exact @imul_momentum. Qed.
Print Assumptions C11_momentum.

Theorem C11_matrix : forall {S : Scal} {L : ScalLaws S} J m, isym J ->
  i6mul (i6_of J) m = imul J m /\ i6sym (i6_of J).
Proof. exact (fun S L J m H => conj (i6_of_mul J m H) (i6sym_of J)). Qed.
Print Assumptions C11_matrix.

Theorem C11_energy_symmetric : forall {S : Scal} {L : ScalLaws S} J a b, isym J ->
  mdot a (imul J b) = mdot b (imul J a).
Proof. exact @imul_sym. Qed.
Print Assumptions C11_energy_symmetric.

Theorem C11_transform : forall {S : Scal} {L : ScalLaws S} T J m, rigid T ->
  imul (iact T J) (mact T m) = fact T (imul J m).
Proof. exact @imul_act. Qed.
Print Assumptions C11_transform.

Theorem C11_add : forall {S : Scal} {L : ScalLaws S} I J m, kadd (imass I) (imass J) <> k0 ->
  imul (iadd I J) m = fadd (imul I m) (imul J m) /\ imass (iadd I J) = kadd (imass I) (imass J) /\
  (isym I -> isym J -> isym (iadd I J)).
Proof. exact (fun S L I J m H => conj (iadd_mul I J m H) (conj eq_refl (isym_add I J))). Qed.
Print Assumptions C11_add.

Theorem C11_matrix_transform : forall {S : Scal} {L : ScalLaws S} T A m, rigid T ->
  i6mul (i6act T A) (mact T m) = fact T (i6mul A m) /\ (i6sym A -> i6sym (i6act T A)).
Proof. exact (fun S L T A m H => conj (i6act_congr T A m H) (i6sym_act T A)). Qed.
Print Assumptions C11_matrix_transform.

Theorem C11_flat : forall {S : Scal},
  (forall J : inertia, isym J ->
    (let '(xx, yy, zz, xy, xz, yz) := I_com_flat J in inertia_flat (imass J) (icom J) xx yy zz xy xz yz) = J) /\
  (forall m c xx yy zz xy xz yz,
    I_com_flat (inertia_flat m c xx yy zz xy xz yz) = (xx, yy, zz, xy, xz, yz) /\
    isym (inertia_flat m c xx yy zz xy xz yz)).
Proof. exact (fun S => conj flat_roundtrip flat_roundtrip'). Qed.
Print Assumptions C11_flat.

Example C11_example : isym (q_inertia 2) /\ kadd (imass (q_inertia 2)) (imass (q_inertia 1)) <> k0 /\ rigid q_iso.
Proof.
  split; [reflexivity|]. split; [|exact q_iso_rigid].
  intros E. apply (f_equal (keq k0)) in E. vm_compute in E. discriminate.
Qed.
