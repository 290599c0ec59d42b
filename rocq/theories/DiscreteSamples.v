(** Concrete logarithms, robots and histories for the theorems on discrete dynamics. *)
From Coq Require Import List Arith ZArith Bool String QArith Qcanon Floats.SpecFloat Lia Field.
From Verif Require Import Scalar Base Spatial SpecGeo SpatialTac SpatialProofs Joint Body Kin InvDyn FwdDyn Opspace OpspaceAba Deriv Sim Ops Discrete Instances Specs SpecCache SpecKin SpecDyn SpecDiscrete Samples Checks DiscreteProofs DiscreteTravel DiscreteLaws DiscreteStill BigSum DynApi SpecOps OpsAlg OpsTask ControlProofs DynProofs.
Import ListNotations.

Section Logs.
Context {S : Scal} {L : ScalLaws S}.
Add Field kf : (@kfield S L).
Local Open Scope k_scope.
Lemma mul0 (x : K) : x * 0 = 0.
Proof. ring. Qed.
(** A logarithm that is exact on translations and forgets rotations. *)
Definition log_s (T : iso) : motion := Mot (tra T) v3zero.
Definition dlog_s (T : iso) : i6 := I6 m3id m3zero m3zero m3id.
Lemma straight_s : straight log_s dlog_s.
Proof.
  constructor; [reflexivity|]. intros t m f _. replace (apply6 (dlog_s (Iso m3id t)) m) with m; [reflexivity|].
  unfold apply6, dlog_s. clear t f. cbn [b11 b12 b21 b22]. revert m. vring.
Qed.
(** A logarithm that changes sign with the direction and notices rotations. *)
Definition vee (R : m3) : v3 :=
  V3 (vz (r1 R) - vy (r2 R)) (vx (r2 R) - vz (r0 R)) (vy (r0 R) - vx (r1 R)).
Definition skew (t : v3) : m3 := M3 (V3 0 (- vz t) (vy t)) (V3 (vz t) 0 (- vx t)) (V3 (- vy t) (vx t) 0).
Definition log_r (T : iso) : motion := Mot (v3sub (tra T) (tra (iso_inv T))) (v3opp (vee (rot T))).
Definition dlog_r (T : iso) : i6 :=
  let X := iso_inv T in
  I6 (m3add m3id (rot X)) (m3mul (skew (tra X)) (rot X)) m3zero (m3add m3id (rot X)).
Lemma dlog_r_act T m : apply6 (dlog_r T) m = madd m (mact (iso_inv T) m).
Proof. unfold apply6, dlog_r. cbn [b11 b12 b21 b22]. generalize (iso_inv T). clear T. intros X. revert X m. unfold skew. vring. Qed.
Lemma reversible_r : reversible log_r dlog_r.
Proof.
  constructor.
  - intros T R. unfold log_r. rewrite iso_inv_inv by auto. clear R. revert T. unfold vee. vring.
  - intros T m R. rewrite !dlog_r_act, iso_inv_inv by auto. rewrite mact_inv_l by auto. generalize (mact T m). clear R. intros x. revert x m. vring.
Qed.
Lemma log_r_id : log_r iso_id = mzero.
Proof. unfold log_r, vee, iso_id, mzero. vunf. f_equal; f_equal; ring. Qed.
End Logs.

(** Among doubles everything but the zeros is told apart. *)
Lemma f64_told_apart sn cs tr x : (forall s, x <> S754_zero s) -> @told_apart (F64of sn cs tr) x.
Proof.
  intros H y E. change (SFeqb y x = true) in E. unfold SFeqb, SFcompare in E.
  destruct y as [s|s| |s m e], x as [s'|s'| |s' m' e']; try discriminate; try (destruct s'; discriminate); try (destruct s; discriminate).
  - destruct (H s'). reflexivity.
  - destruct s, s'; try discriminate; reflexivity.
  - destruct s, s'; try discriminate; destruct (Z.compare e e') eqn:C; try discriminate; apply Z.compare_eq in C; subst e';
      destruct (Pos.compare_cont Eq m m') eqn:M; try discriminate; apply Pos.compare_eq in M; subst; reflexivity.
Qed.

(** The sum of squares in place of a norm. *)
Definition sumsq (l : list (@K QcScal)) : @K QcScal := fold_right (fun x a => kadd (kmul x x) a) k0 l.
Section Robots.
Variable solve : list (list (@K QcScal)) -> list (@K QcScal) -> list (@K QcScal).
Variable log6 : @iso QcScal -> @motion QcScal.
Variable dlog6 : @iso QcScal -> @i6 QcScal.
Definition drobot (h : list (@dop QcScal)) (x : Z) : @body QcScal :=
  match drun solve pinv0 log6 dlog6 sumsq h (body_new "r" (junk (qz x))) with Some ab => ab | None => body_new "none" (junk (qz x)) end.
Lemma drobot_reached h x : is_some (drun solve pinv0 log6 dlog6 sumsq h (body_new "r" (junk (qz x)))) = true ->
  dreached solve pinv0 log6 dlog6 sumsq h (drobot h x).
Proof. intros H. exists "r"%string, (junk (qz x)). unfold drobot. destruct (drun _ _ _ _ _ _ _); [auto|discriminate]. Qed.
(** Numbers in the impulses returned. *)
Definition dfracs (r : res (list (@K QcScal))) : list (Z * Z) := match r with Ok l => map frac l | _ => [] end.
Lemma dfracs_neq a b : dfracs a <> dfracs b -> a <> b.
Proof. intros H E. apply H. rewrite E. reflexivity. Qed.
End Robots.
Definition none : @fmap QcScal := fun _ => None.
Definition pull : @fmap QcScal := fun k => if Nat.eqb k 2 then Some (Frc (QV 1 2 3) (QV 4 5 6)) else None.

(** The branching robot of Samples.v, asked for impulses before and after it is posed. *)
Definition dbusy : list (@dop QcScal) :=
  map DOp build ++ [DAsk (map qz [1; 2; 3; 4]%Z) (qq 1 2) pull true] ++ map DOp pose ++
  [DOp (OAddLoad (q_inertia 2) 3); DAsk (map qz [0; 0; 0; 1]%Z) (qq 1 2) none false; DOp (OAsk QInertia); DAsk (map qz [1; 0; 0; 0]%Z) (qz 1) pull true].

(** A cart on a rail, and one on top of it that slides across. *)
Definition cart : list (@dop QcScal) :=
  [DOp (OAdd (q_link "a" JPx iso_id 1) (-1)); DOp (OAdd (q_link "b" JPy q_iso 2) 0);
   DOp (OSetQ (map qz [1; 2]%Z)); DOp (OSetDq (map qz [3; -1]%Z))].
Definition push (a b : Z) : @leg QcScal := Leg [QInertia; QGrav] (map qz [a; b]%Z) none false (qq 1 1000) 5.
(** The first cart alone. *)
Definition cart1 : list (@dop QcScal) := [DOp (OAdd (q_link "a" JPx iso_id 1) (-1)); DOp (OSetDq [qz 1])].
Definition go (t : Z) (cap : nat) : @dop QcScal := DInt [qz t] (qz 1) none false (qq 1 1000) cap.

(** Deciding hypotheses. *)
Definition proper_jointsb (ab : @body QcScal) : bool :=
  forallb (fun rb => let s := jsub (rb_joint rb) in let u := subspace_of (jtyp (rb_joint rb)) in v3eqb (mlin s) (mlin u) && v3eqb (mang s) (mang u)) (ab_rbs ab).
Lemma proper_jointsb_ok ab : proper_jointsb ab = true -> proper_joints ab.
Proof.
  unfold proper_jointsb. rewrite forallb_forall. intros H. apply Forall_forall. intros rb I. specialize (H rb I). cbn zeta in H. apply andb_prop in H. destruct H as [H1 H2].
  apply v3eqb_ok in H1, H2. destruct (jsub _), (subspace_of _). cbn in *. subst. auto.
Qed.
Definition slidingb (ab : @body QcScal) : bool :=
  forallb (fun rb => match jtyp (rb_joint rb) with JPx | JPy | JPz => true | _ => false end) (ab_rbs ab).
Lemma slidingb_ok ab : slidingb ab = true -> sliding_joints ab.
Proof.
  unfold slidingb. rewrite forallb_forall. intros H. apply Forall_forall. intros rb I. specialize (H rb I). destruct (jtyp _); try discriminate; cbn; auto.
Qed.
Definition no_loadb (ab : @body QcScal) : bool := forallb (fun k => negb (is_some (ab_loads ab (Z.of_nat k)))) (seq 0 (ab_dof ab)).
Lemma no_loadb_ok ab : no_loadb ab = true -> forall k, (k < ab_dof ab)%nat -> ab_loads ab (Z.of_nat k) = None.
Proof.
  unfold no_loadb. rewrite forallb_forall. intros H k Hk. assert (I : In k (seq 0 (ab_dof ab))) by (apply in_seq; lia).
  specialize (H k I). destruct (ab_loads ab _); [discriminate|auto].
Qed.
(** A robot at rest. *)
Definition drest : list (@dop QcScal) := map DOp build ++ [DOp (OSetQ [qq 1 2; qz 1; qz 2; qq 1 3]); DOp (OAddLoad (q_inertia 2) 3)].

(** A matrix with a left inverse. *)
Lemma injective_inverse {S : Scal} {L : ScalLaws S} n A B :
  (forall i j, (i < n)%nat -> (j < n)%nat -> prod_at n B A i j = delta i j) -> injective n A.
Proof.
  intros H x Hx Z i Hi.
  transitivity (fm n (fm n (entry B) (entry A)) (fun k _ => coef x k) i 0).
  - rewrite (fm_ext n _ delta _ (fun k _ => coef x k)) by (auto; intros k Hk; rewrite <- prod_fm; auto). rewrite fm_delta_l by auto. reflexivity.
  - rewrite fm_assoc. unfold fm at 1. apply ksum_zero. intros k Hk. specialize (Z k Hk). unfold row_times in Z. rewrite total_ksum in Z.
    change (kmul (entry B i k) (ksum n (fun j => kmul (entry A k j) (coef x j))) = k0). rewrite Z. apply mul0.
Qed.
