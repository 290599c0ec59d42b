(** Lemmas for C10 on points. *)
From Coq Require Import Ring Field.
From Verif Require Import Scalar Spatial SpecGeo SpatialProofs SpatialTac SpecPoint.
Section PointProofs.
Context {S : Scal} {L : ScalLaws S}.
Local Open Scope k_scope.
Add Field kf_point : (@kfield S L).
Lemma add_mulv R a b : m3mulv R (v3add a b) = v3add (m3mulv R a) (m3mulv R b).
Proof. vring. Qed.
Lemma sub_mulv R a b : m3mulv R (v3sub a b) = v3sub (m3mulv R a) (m3mulv R b).
Proof. vring. Qed.
Lemma point_velocity T m p : rigid T -> velocity_at (mact T m) (iso_app T p) = m3mulv (rot T) (velocity_at m p).
Proof.
  intros H. unfold velocity_at, mact, iso_app. cbn [mlin mang]. rewrite add_mulv, <- (rot_cross (rot T)) by exact H.
  generalize (m3mulv (rot T) (mlin m)) (m3mulv (rot T) (mang m)) (m3mulv (rot T) p) (tra T). vring.
Qed.
Lemma point_moment T f p : rigid T -> moment_about (fact T f) (iso_app T p) = m3mulv (rot T) (moment_about f p).
Proof.
  intros H. unfold moment_about, fact, iso_app. cbn [flin fang]. rewrite sub_mulv, <- (rot_cross (rot T)) by exact H.
  generalize (m3mulv (rot T) (flin f)) (m3mulv (rot T) (fang f)) (m3mulv (rot T) p) (tra T). vring.
Qed.
Lemma point_push T f p : rigid T -> fact T (push_at f p) = push_at (m3mulv (rot T) f) (iso_app T p).
Proof.
  intros H. unfold push_at, fact, iso_app. cbn [flin fang]. rewrite <- (rot_cross (rot T)) by exact H.
  generalize (m3mulv (rot T) f) (m3mulv (rot T) p) (tra T). vring.
Qed.
Lemma point_power m f p : mdot m (push_at f p) = v3dot f (velocity_at m p).
Proof. unfold velocity_at, push_at, mdot. vring. Qed.
Lemma c10_points T m f p : rigid T ->
  velocity_at (mact T m) (iso_app T p) = m3mulv (rot T) (velocity_at m p) /\
  moment_about (fact T f) (iso_app T p) = m3mulv (rot T) (moment_about f p) /\ flin (fact T f) = m3mulv (rot T) (flin f).
Proof. intros H. split; [apply point_velocity; auto|]. split; [apply point_moment; auto|reflexivity]. Qed.
Lemma c10_push T m f p : rigid T ->
  mdot m (push_at f p) = v3dot f (velocity_at m p) /\ fact T (push_at f p) = push_at (m3mulv (rot T) f) (iso_app T p).
Proof. intros H. split; [apply point_power|apply point_push; auto]. Qed.
End PointProofs.
