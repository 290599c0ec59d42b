(** Algebra of rigid transforms, spatial vectors and inertias (exact arithmetic). *)
From Coq Require Import Ring Field.
From Verif Require Import Scalar Spatial SpecGeo.

Section SpatialProofs.
Context {S : Scal} {L : ScalLaws S}.
Local Open Scope k_scope.

Add Field kf : (@kfield S L).

Ltac cases := repeat match goal with
  | x : v3 |- _ => destruct x
  | x : m3 |- _ => destruct x
  | x : iso |- _ => destruct x
  | x : motion |- _ => destruct x
  | x : force |- _ => destruct x
  | x : inertia |- _ => destruct x
  | x : i6 |- _ => destruct x
  end.
Ltac vunf := cbv [v3zero v3add v3sub v3opp v3scale v3div v3dot v3cross m3zero m3id m3add m3sub
  m3scale m3tr m3mulv m3mul m3outer m3rowcross m3colcross iso_id iso_mul iso_inv iso_app
  mzero madd msub mopp mscale fzero fadd fsub fopp fscale mact fact mact_tra fact_tra mdot
  mcross fcross inertia_flat I_com_flat iact iact_tra imul double_cross iadd i6add i6sub
  i6_of i6mul i6outer i6act
  vx vy vz r0 r1 r2 rot tra mlin mang flin fang imass icom iI b11 b12 b21 b22].
Ltac ext := repeat match goal with
  | |- V3 _ _ _ = V3 _ _ _ => refine (f_equal3 (@V3 S) _ _ _)
  | |- M3 _ _ _ = M3 _ _ _ => refine (f_equal3 (@M3 S) _ _ _)
  | |- Iso _ _ = Iso _ _ => refine (f_equal2 (@Iso S) _ _)
  | |- Mot _ _ = Mot _ _ => refine (f_equal2 (@Mot S) _ _)
  | |- Frc _ _ = Frc _ _ => refine (f_equal2 (@Frc S) _ _)
  | |- Inr _ _ _ = Inr _ _ _ => refine (f_equal3 (@Inr S) _ _ _)
  | |- I6 _ _ _ _ = I6 _ _ _ _ => refine (f_equal4 (@I6 S) _ _ _ _)
  end.
Ltac vring := intros; cases; vunf; ext; ring.

(** Proper rotations and rigid transforms. *)

Definition m3cof (A : m3) : m3 :=
  M3 (v3cross (r1 A) (r2 A)) (v3cross (r2 A) (r0 A)) (v3cross (r0 A) (r1 A)).

Lemma m3mul_assoc A B C : m3mul (m3mul A B) C = m3mul A (m3mul B C).
Proof. vring. Qed.
Lemma m3mul_id_l A : m3mul m3id A = A.
Proof. vring. Qed.
Lemma m3mul_id_r A : m3mul A m3id = A.
Proof. vring. Qed.
Lemma m3mulv_mul A B v : m3mulv (m3mul A B) v = m3mulv A (m3mulv B v).
Proof. vring. Qed.
Lemma m3mulv_id v : m3mulv m3id v = v.
Proof. vring. Qed.
Lemma m3tr_mul A B : m3tr (m3mul A B) = m3mul (m3tr B) (m3tr A).
Proof. vring. Qed.
Lemma m3tr_tr A : m3tr (m3tr A) = A.
Proof. vring. Qed.
Lemma m3tr_id : m3tr m3id = m3id.
Proof. reflexivity. Qed.
Lemma m3det_mul A B : m3det (m3mul A B) = m3det A * m3det B.
Proof. unfold m3det. vring. Qed.
Lemma m3det_tr A : m3det (m3tr A) = m3det A.
Proof. unfold m3det. vring. Qed.
Lemma m3cof_mul A : m3mul (m3tr (m3cof A)) A = m3scale (m3det A) m3id.
Proof. unfold m3det, m3cof. vring. Qed.
Lemma m3cof_cross A a b : v3cross (m3mulv A a) (m3mulv A b) = m3mulv (m3cof A) (v3cross a b).
Proof. unfold m3cof. vring. Qed.
Lemma m3scale_1 A : m3scale 1 A = A.
Proof. vring. Qed.
Lemma v3dot_mulv A a b : v3dot (m3mulv A a) b = v3dot a (m3mulv (m3tr A) b).
Proof. vring. Qed.

Lemma rot_cof R : is_rot R -> m3cof R = R.
Proof.
  intros [H D].
  assert (E : m3tr (m3cof R) = m3tr R).
  { rewrite <- (m3mul_id_r (m3tr (m3cof R))), <- H, <- m3mul_assoc, m3cof_mul, D, m3scale_1.
    apply m3mul_id_l. }
  transitivity (m3tr (m3tr (m3cof R))); [symmetry; apply m3tr_tr|]. rewrite E. apply m3tr_tr.
Qed.
Lemma rot_tr_l R : is_rot R -> m3mul (m3tr R) R = m3id.
Proof.
  intros HR. rewrite <- (rot_cof R HR) at 1. destruct HR as [H D].
  rewrite m3cof_mul, D. apply m3scale_1.
Qed.
Lemma rot_tr_r R : is_rot R -> m3mul R (m3tr R) = m3id.
Proof. intros [H _]; exact H. Qed.
Lemma rot_cross R a b : is_rot R -> v3cross (m3mulv R a) (m3mulv R b) = m3mulv R (v3cross a b).
Proof. intros H. rewrite m3cof_cross, (rot_cof R H). reflexivity. Qed.
Lemma rot_dot R a b : is_rot R -> v3dot (m3mulv R a) (m3mulv R b) = v3dot a b.
Proof. intros H. rewrite v3dot_mulv, <- m3mulv_mul, (rot_tr_l R H), m3mulv_id. reflexivity. Qed.
Lemma is_rot_id : is_rot m3id.
Proof. split; [|unfold m3det]; vunf; ext; ring. Qed.
Lemma is_rot_mul A B : is_rot A -> is_rot B -> is_rot (m3mul A B).
Proof.
  intros HA HB. split.
  - rewrite m3tr_mul, m3mul_assoc, <- (m3mul_assoc B), (rot_tr_r B HB), m3mul_id_l.
    apply rot_tr_r, HA.
  - rewrite m3det_mul. destruct HA as [_ ->], HB as [_ ->]. ring.
Qed.
Lemma is_rot_tr A : is_rot A -> is_rot (m3tr A).
Proof.
  intros H. split; [rewrite m3tr_tr; apply rot_tr_l, H|]. rewrite m3det_tr. apply H.
Qed.
Lemma rot_mulv_tr R v : is_rot R -> m3mulv R (m3mulv (m3tr R) v) = v.
Proof. intros H. rewrite <- m3mulv_mul, rot_tr_r, m3mulv_id; auto. Qed.
Lemma rot_tr_mulv R v : is_rot R -> m3mulv (m3tr R) (m3mulv R v) = v.
Proof. intros H. rewrite <- m3mulv_mul, rot_tr_l, m3mulv_id; auto. Qed.

Lemma rigid_id : rigid iso_id.
Proof. exact is_rot_id. Qed.
Lemma rigid_mul A B : rigid A -> rigid B -> rigid (iso_mul A B).
Proof. apply is_rot_mul. Qed.
Lemma rigid_inv A : rigid A -> rigid (iso_inv A).
Proof. apply is_rot_tr. Qed.
Lemma iso_mul_assoc A B C : iso_mul (iso_mul A B) C = iso_mul A (iso_mul B C).
Proof. vring. Qed.
Lemma iso_mul_id_l A : iso_mul iso_id A = A.
Proof. vring. Qed.
Lemma iso_mul_id_r A : iso_mul A iso_id = A.
Proof. vring. Qed.
Lemma v3add_opp_r v : v3add v (v3opp v) = v3zero.
Proof. vring. Qed.
Lemma v3add_opp_l v : v3add (v3opp v) v = v3zero.
Proof. vring. Qed.
Lemma m3mulv_opp A v : m3mulv A (v3opp v) = v3opp (m3mulv A v).
Proof. vring. Qed.
Lemma iso_inv_l A : rigid A -> iso_mul (iso_inv A) A = iso_id.
Proof.
  intros H. unfold iso_mul, iso_inv, iso_id; cbn. rewrite rot_tr_l by exact H.
  rewrite v3add_opp_r. reflexivity.
Qed.
Lemma iso_inv_r A : rigid A -> iso_mul A (iso_inv A) = iso_id.
Proof.
  intros H. unfold iso_mul, iso_inv, iso_id; cbn. rewrite rot_tr_r by exact H.
  rewrite m3mulv_opp, rot_mulv_tr, v3add_opp_l by exact H. reflexivity.
Qed.
Lemma iso_app_mul A B p : iso_app (iso_mul A B) p = iso_app A (iso_app B p).
Proof. vring. Qed.
Lemma iso_app_id p : iso_app iso_id p = p.
Proof. vring. Qed.

(** Motions *)
Lemma mact_id m : mact iso_id m = m.
Proof. vring. Qed.
Lemma mact_add T a b : mact T (madd a b) = madd (mact T a) (mact T b).
Proof. vring. Qed.
Lemma mact_sub T a b : mact T (msub a b) = msub (mact T a) (mact T b).
Proof. vring. Qed.
Lemma mact_opp T a : mact T (mopp a) = mopp (mact T a).
Proof. vring. Qed.
Lemma mact_scale T k a : mact T (mscale k a) = mscale k (mact T a).
Proof. vring. Qed.
Lemma mact_zero T : mact T mzero = mzero.
Proof. vring. Qed.
Lemma fact_id m : fact iso_id m = m.
Proof. vring. Qed.
Lemma fact_add T a b : fact T (fadd a b) = fadd (fact T a) (fact T b).
Proof. vring. Qed.
Lemma fact_sub T a b : fact T (fsub a b) = fsub (fact T a) (fact T b).
Proof. vring. Qed.
Lemma fact_opp T a : fact T (fopp a) = fopp (fact T a).
Proof. vring. Qed.
Lemma fact_scale T k a : fact T (fscale k a) = fscale k (fact T a).
Proof. vring. Qed.
Lemma fact_zero T : fact T fzero = fzero.
Proof. vring. Qed.

Lemma mact_mul A B m : rigid A -> mact (iso_mul A B) m = mact A (mact B m).
Proof.
  intros H. unfold mact, iso_mul; cbn. f_equal; [|apply m3mulv_mul].
  rewrite !m3mulv_mul.
  assert (E : forall R a b, m3mulv R (v3sub a b) = v3sub (m3mulv R a) (m3mulv R b)) by vring.
  rewrite E, <- (rot_cross (rot A)) by exact H.
  generalize (m3mulv (rot A) (m3mulv (rot B) (mlin m))) (m3mulv (rot A) (m3mulv (rot B) (mang m)))
    (m3mulv (rot A) (tra B)) (tra A). vring.
Qed.
Lemma fact_mul A B m : rigid A -> fact (iso_mul A B) m = fact A (fact B m).
Proof.
  intros H. unfold fact, iso_mul; cbn. f_equal; [apply m3mulv_mul|].
  rewrite !m3mulv_mul.
  assert (E : forall R a b, m3mulv R (v3sub a b) = v3sub (m3mulv R a) (m3mulv R b)) by vring.
  rewrite E, <- (rot_cross (rot A)) by exact H.
  generalize (m3mulv (rot A) (m3mulv (rot B) (flin m))) (m3mulv (rot A) (m3mulv (rot B) (fang m)))
    (m3mulv (rot A) (tra B)) (tra A). vring.
Qed.
Lemma mact_inv_l T m : rigid T -> mact (iso_inv T) (mact T m) = m.
Proof. intros H. rewrite <- mact_mul, iso_inv_l, mact_id; auto using rigid_inv. Qed.
Lemma mact_inv_r T m : rigid T -> mact T (mact (iso_inv T) m) = m.
Proof. intros H. rewrite <- mact_mul, iso_inv_r, mact_id; auto. Qed.
Lemma fact_inv_l T m : rigid T -> fact (iso_inv T) (fact T m) = m.
Proof. intros H. rewrite <- fact_mul, iso_inv_l, fact_id; auto using rigid_inv. Qed.
Lemma fact_inv_r T m : rigid T -> fact T (fact (iso_inv T) m) = m.
Proof. intros H. rewrite <- fact_mul, iso_inv_r, fact_id; auto. Qed.

Lemma mdot_act T m f : rigid T -> mdot (mact T m) (fact T f) = mdot m f.
Proof.
  intros H. unfold mdot, mact, fact; cbn.
  rewrite <- (rot_dot (rot T) (mlin m) (flin f) H), <- (rot_dot (rot T) (mang m) (fang f) H).
  generalize (m3mulv (rot T) (mlin m)) (m3mulv (rot T) (mang m))
    (m3mulv (rot T) (flin f)) (m3mulv (rot T) (fang f)) (tra T). vring.
Qed.
Lemma mdot_act_l T m f : rigid T -> mdot (mact T m) f = mdot m (fact (iso_inv T) f).
Proof. intros H. rewrite <- (fact_inv_r T f H) at 1. apply mdot_act, H. Qed.
Lemma mdot_act_r T m f : rigid T -> mdot m (fact T f) = mdot (mact (iso_inv T) m) f.
Proof. intros H. rewrite <- (mact_inv_r T m H) at 1. apply mdot_act, H. Qed.

(** Cross products, in vector form *)
Lemma mcross_vec a b :
  mcross a b = Mot (v3add (v3cross (mlin a) (mang b)) (v3cross (mang a) (mlin b)))
                   (v3cross (mang a) (mang b)).
Proof. vring. Qed.
Lemma fcross_vec a b :
  fcross a b = Frc (v3cross (mang a) (flin b))
                   (v3add (v3cross (mlin a) (flin b)) (v3cross (mang a) (fang b))).
Proof. vring. Qed.
Lemma mact_cross T a b : rigid T -> mact T (mcross a b) = mcross (mact T a) (mact T b).
Proof.
  intros H. rewrite !mcross_vec. unfold mact; cbn.
  assert (E : forall R x y, m3mulv R (v3add x y) = v3add (m3mulv R x) (m3mulv R y)) by vring.
  rewrite E, <- !(rot_cross (rot T)) by exact H. f_equal.
  generalize (m3mulv (rot T) (mlin a)) (m3mulv (rot T) (mang a))
    (m3mulv (rot T) (mlin b)) (m3mulv (rot T) (mang b)) (tra T). vring.
Qed.
Lemma fact_cross T a b : rigid T -> fact T (fcross a b) = fcross (mact T a) (fact T b).
Proof.
  intros H. rewrite !fcross_vec. unfold mact, fact; cbn.
  assert (E : forall R x y, m3mulv R (v3add x y) = v3add (m3mulv R x) (m3mulv R y)) by vring.
  rewrite E, <- !(rot_cross (rot T)) by exact H. f_equal.
  generalize (m3mulv (rot T) (mlin a)) (m3mulv (rot T) (mang a))
    (m3mulv (rot T) (flin b)) (m3mulv (rot T) (fang b)) (tra T). vring.
Qed.
Lemma mcross_dual a b f : mdot (mcross a b) f = - mdot b (fcross a f).
Proof. vring. Qed.
Lemma mcross_self a : mcross a a = mzero.
Proof. vring. Qed.
Lemma mcross_anti a b : mcross a b = mopp (mcross b a).
Proof. vring. Qed.
Lemma mcross_jacobi a b c :
  madd (mcross a (mcross b c)) (madd (mcross b (mcross c a)) (mcross c (mcross a b))) = mzero.
Proof. vring. Qed.
Lemma mcross_add_l a b c : mcross (madd a b) c = madd (mcross a c) (mcross b c).
Proof. vring. Qed.
Lemma mcross_add_r a b c : mcross a (madd b c) = madd (mcross a b) (mcross a c).
Proof. vring. Qed.
Lemma mcross_scale_l k a b : mcross (mscale k a) b = mscale k (mcross a b).
Proof. vring. Qed.
Lemma mcross_scale_r k a b : mcross a (mscale k b) = mscale k (mcross a b).
Proof. vring. Qed.
Lemma fcross_add_l a b c : fcross (madd a b) c = fadd (fcross a c) (fcross b c).
Proof. vring. Qed.
Lemma fcross_add_r a b c : fcross a (fadd b c) = fadd (fcross a b) (fcross a c).
Proof. vring. Qed.
Lemma fcross_scale_l k a b : fcross (mscale k a) b = fscale k (fcross a b).
Proof. vring. Qed.
Lemma fcross_scale_r k a b : fcross a (fscale k b) = fscale k (fcross a b).
Proof. vring. Qed.
Lemma mcross_zero_l a : mcross mzero a = mzero.
Proof. vring. Qed.
Lemma mcross_zero_r a : mcross a mzero = mzero.
Proof. vring. Qed.
Lemma fcross_zero_l a : fcross mzero a = fzero.
Proof. vring. Qed.

(** The pairing *)
Lemma mdot_add_l a b f : mdot (madd a b) f = mdot a f + mdot b f.
Proof. vring. Qed.
Lemma mdot_add_r a f g : mdot a (fadd f g) = mdot a f + mdot a g.
Proof. vring. Qed.
Lemma mdot_sub_r a f g : mdot a (fsub f g) = mdot a f - mdot a g.
Proof. vring. Qed.
Lemma mdot_sub_l a b g : mdot (msub a b) g = mdot a g - mdot b g.
Proof. vring. Qed.
Lemma mdot_opp_r a f : mdot a (fopp f) = - mdot a f.
Proof. vring. Qed.
Lemma mdot_opp_l a f : mdot (mopp a) f = - mdot a f.
Proof. vring. Qed.
Lemma mdot_scale_l k a f : mdot (mscale k a) f = k * mdot a f.
Proof. vring. Qed.
Lemma mdot_scale_r k a f : mdot a (fscale k f) = k * mdot a f.
Proof. vring. Qed.
Lemma mdot_zero_l f : mdot mzero f = 0.
Proof. vring. Qed.
Lemma mdot_zero_r a : mdot a fzero = 0.
Proof. vring. Qed.

(** Group laws *)
Lemma madd_comm a b : madd a b = madd b a.
Proof. vring. Qed.
Lemma madd_assoc a b c : madd a (madd b c) = madd (madd a b) c.
Proof. vring. Qed.
Lemma madd_zero_l a : madd mzero a = a.
Proof. vring. Qed.
Lemma madd_zero_r a : madd a mzero = a.
Proof. vring. Qed.
Lemma fadd_comm a b : fadd a b = fadd b a.
Proof. vring. Qed.
Lemma fadd_assoc a b c : fadd a (fadd b c) = fadd (fadd a b) c.
Proof. vring. Qed.
Lemma fadd_zero_l a : fadd fzero a = a.
Proof. vring. Qed.
Lemma fadd_zero_r a : fadd a fzero = a.
Proof. vring. Qed.
Lemma mscale_zero_l a : mscale 0 a = mzero.
Proof. vring. Qed.
Lemma mscale_1 a : mscale 1 a = a.
Proof. vring. Qed.
Lemma mscale_zero_r k : mscale k mzero = mzero.
Proof. vring. Qed.
Lemma fscale_zero_l a : fscale 0 a = fzero.
Proof. vring. Qed.
Lemma mscale_add_l j k a : mscale (j + k) a = madd (mscale j a) (mscale k a).
Proof. vring. Qed.
Lemma mscale_add_r k a b : mscale k (madd a b) = madd (mscale k a) (mscale k b).
Proof. vring. Qed.
Lemma mscale_mul j k a : mscale j (mscale k a) = mscale (j * k) a.
Proof. vring. Qed.
Lemma msub_opp a b : msub a b = madd a (mopp b).
Proof. vring. Qed.
Lemma fsub_opp a b : fsub a b = fadd a (fopp b).
Proof. vring. Qed.
Lemma fopp_add a b : fopp (fadd a b) = fadd (fopp a) (fopp b).
Proof. vring. Qed.
Lemma fadd_opp_r a : fadd a (fopp a) = fzero.
Proof. vring. Qed.
Lemma fopp_zero : fopp fzero = fzero.
Proof. vring. Qed.

(** Inertias *)
Lemma imul_add I a b : imul I (madd a b) = fadd (imul I a) (imul I b).
Proof. vring. Qed.
Lemma imul_sub I a b : imul I (msub a b) = fsub (imul I a) (imul I b).
Proof. vring. Qed.
Lemma imul_opp I a : imul I (mopp a) = fopp (imul I a).
Proof. vring. Qed.
Lemma imul_scale I k a : imul I (mscale k a) = fscale k (imul I a).
Proof. vring. Qed.
Lemma imul_zero I : imul I mzero = fzero.
Proof. vring. Qed.


Lemma m3sym_entries A : m3sym A ->
  vx (r1 A) = vy (r0 A) /\ vx (r2 A) = vz (r0 A) /\ vy (r2 A) = vz (r1 A).
Proof. destruct A as [[] [] []]; unfold m3sym, m3tr; cbn. intros H; inversion H; auto. Qed.

Lemma imul_sym I a b : isym I -> mdot a (imul I b) = mdot b (imul I a).
Proof.
  intros H. apply m3sym_entries in H. destruct I as [m c [[] [] []]]; cbn in H.
  destruct H as [? [? ?]]; subst. vring.
Qed.

Lemma i6_of_mul I m : isym I -> i6mul (i6_of I) m = imul I m.
Proof.
  intros H. apply m3sym_entries in H. destruct I as [ms c [[] [] []]]; cbn in H.
  destruct H as [? [? ?]]; subst. vring.
Qed.

(** momentum in the transformed frame *)
Lemma imul_act T I m : rigid T -> imul (iact T I) (mact T m) = fact T (imul I m).
Proof.
  intros H. unfold imul, iact, mact, fact, iso_app; cbn.
  rewrite !m3mulv_mul, rot_tr_mulv by exact H.
  assert (Ea : forall R x y, m3mulv R (v3add x y) = v3add (m3mulv R x) (m3mulv R y)) by vring.
  assert (Es : forall R x y, m3mulv R (v3sub x y) = v3sub (m3mulv R x) (m3mulv R y)) by vring.
  assert (Ek : forall R k x, m3mulv R (v3scale k x) = v3scale k (m3mulv R x)) by vring.
  rewrite !Ea, !Es, !Ek, <- !(rot_cross (rot T)), !Ek, <- ?(rot_cross (rot T)) by exact H.
  generalize (m3mulv (rot T) (mlin m)) (m3mulv (rot T) (mang m)) (m3mulv (rot T) (icom I)) (tra T)
    (m3mulv (rot T) (m3mulv (iI I) (mang m))) (imass I). vring.
Qed.
Lemma imul_act' T I m : rigid T -> imul (iact T I) m = fact T (imul I (mact (iso_inv T) m)).
Proof. intros H. rewrite <- imul_act, mact_inv_r; auto. Qed.

Lemma iadd_mul I J m : imass I + imass J <> 0 ->
  imul (iadd I J) m = fadd (imul I m) (imul J m).
Proof.
  intros H. cases; cbn in H. vunf. ext; field; exact H.
Qed.

Lemma m3sym_add A B : m3sym A -> m3sym B -> m3sym (m3add A B).
Proof. unfold m3sym. intros HA HB. rewrite <- HA at 2. rewrite <- HB at 2. vring. Qed.
Lemma m3sym_sub A B : m3sym A -> m3sym B -> m3sym (m3sub A B).
Proof. unfold m3sym. intros HA HB. rewrite <- HA at 2. rewrite <- HB at 2. vring. Qed.
Lemma m3sym_scale k A : m3sym A -> m3sym (m3scale k A).
Proof. unfold m3sym. intros HA. rewrite <- HA at 2. vring. Qed.
Lemma m3sym_dc x : m3sym (double_cross x).
Proof. unfold m3sym. vring. Qed.
Lemma m3sym_cong R A : m3sym A -> m3sym (m3mul (m3mul R A) (m3tr R)).
Proof. unfold m3sym. intros H. rewrite !m3tr_mul, m3tr_tr, H, m3mul_assoc. reflexivity. Qed.
Lemma isym_add I J : isym I -> isym J -> isym (iadd I J).
Proof. intros H G. unfold isym, iadd. cbn [iI]. auto 7 using m3sym_add, m3sym_sub, m3sym_scale, m3sym_dc. Qed.
Lemma isym_act T I : isym I -> isym (iact T I).
Proof. intros. apply m3sym_cong, H. Qed.

(** 6x6 matrices *)
Lemma i6mul_add_l A B m : i6mul (i6add A B) m = fadd (i6mul A m) (i6mul B m).
Proof. vring. Qed.
Lemma i6mul_sub_l A B m : i6mul (i6sub A B) m = fsub (i6mul A m) (i6mul B m).
Proof. vring. Qed.
Lemma i6mul_add A a b : i6mul A (madd a b) = fadd (i6mul A a) (i6mul A b).
Proof. vring. Qed.
Lemma i6mul_scale A k a : i6mul A (mscale k a) = fscale k (i6mul A a).
Proof. vring. Qed.
Lemma i6mul_zero A : i6mul A mzero = fzero.
Proof. vring. Qed.
Lemma i6outer_mul h d m : d <> 0 -> i6mul (i6outer h d) m = fscale (mdot m h / d) h.
Proof. intros H. cases. vunf. ext; field; exact H. Qed.
Lemma i6outer_mul' h d m : i6mul (i6outer h d) m = fscale (mdot m h * (kinv d)) h.
Proof.
  assert (E : forall x y, x / y = x * kinv y) by (apply (Fdiv_def kfield)).
  cases. vunf. rewrite !E. ext; ring.
Qed.

Lemma i6act_mul T A m : rigid T -> i6mul (i6act T A) m = fact T (i6mul A (mact (iso_inv T) m)).
Proof.
  intros H.
  assert (Ea : forall R x y, m3mulv R (v3add x y) = v3add (m3mulv R x) (m3mulv R y)) by vring.
  assert (Es : forall R x y, m3mulv R (v3sub x y) = v3sub (m3mulv R x) (m3mulv R y)) by vring.
  assert (Eo : forall R x, m3mulv R (v3opp x) = v3opp (m3mulv R x)) by vring.
  assert (Esl : forall A B x, m3mulv (m3sub A B) x = v3sub (m3mulv A x) (m3mulv B x)) by vring.
  assert (Er : forall A t x, m3mulv (m3rowcross A t) x = m3mulv A (v3cross t x)) by vring.
  assert (Ec : forall A t x, m3mulv (m3colcross A t) x = v3cross (m3mulv A x) t) by vring.
  assert (Ex : forall a b, v3cross (m3mulv (m3tr (rot T)) a) (m3mulv (m3tr (rot T)) b)
                           = m3mulv (m3tr (rot T)) (v3cross a b))
    by (intros; apply rot_cross, is_rot_tr, H).
  unfold i6mul, i6act, fact, mact, iso_inv; cbn.
  rewrite !Esl, !Ec, !m3mulv_mul, !Esl, !m3mulv_mul, !Er, !m3mulv_mul, ?Eo.
  assert (Eo2 : forall a b, v3cross a (v3opp b) = v3opp (v3cross a b)) by vring.
  rewrite !Eo2, !Ex. 
  set (Rt := m3tr (rot T)).
  rewrite ?Es, ?Ea, ?Eo, ?Es.
  assert (Q : v3cross (mang m) (tra T) = v3opp (v3cross (tra T) (mang m))) by vring.
  rewrite ?Q, ?Eo, ?Ea, ?Es, ?Eo, ?Ea, ?Es, ?Eo.
  repeat match goal with |- context [m3mulv ?A ?b] => generalize (m3mulv A b); intro end.
  refine (f_equal2 (@Frc S) _ _); vring.
Qed.

Lemma i6mul_sym A a b : i6sym A -> mdot a (i6mul A b) = mdot b (i6mul A a).
Proof.
  intros [H1 [H2 H3]]. destruct A as [A B C D]; cbn in *. subst.
  apply m3sym_entries in H1. apply m3sym_entries in H2.
  destruct A as [[] [] []], D as [[] [] []]; cbn in *.
  destruct H1 as [? [? ?]], H2 as [? [? ?]]; subst. vring.
Qed.
Lemma i6sym_of I : i6sym (i6_of I).
Proof. cases. repeat split; vunf; ext; ring. Qed.
Lemma i6sym_add A B : i6sym A -> i6sym B -> i6sym (i6add A B).
Proof.
  intros [H1 [H2 H3]] [G1 [G2 G3]]. repeat split; cbn.
  - apply m3sym_add; auto.
  - apply m3sym_add; auto.
  - rewrite H3, G3. vring.
Qed.
Lemma i6sym_sub A B : i6sym A -> i6sym B -> i6sym (i6sub A B).
Proof.
  intros [H1 [H2 H3]] [G1 [G2 G3]]. repeat split; cbn.
  - apply m3sym_sub; auto.
  - apply m3sym_sub; auto.
  - rewrite H3, G3. vring.
Qed.
Lemma i6sym_outer h d : i6sym (i6outer h d).
Proof.
  assert (E : forall x y, x / y = x * kinv y) by (apply (Fdiv_def kfield)).
  cases. repeat split; vunf; rewrite !E; ext; ring.
Qed.
Lemma i6sym_act T A : i6sym A -> i6sym (i6act T A).
Proof.
  intros [H1 [H2 H3]]. destruct A as [A B C D]; cbn in *. subst.
  apply m3sym_entries in H1. apply m3sym_entries in H2.
  destruct A as [[] [] []], D as [[] [] []]; cbn in *.
  destruct H1 as [? [? ?]], H2 as [? [? ?]]; subst.
  cases. repeat split; vunf; ext; ring.
Qed.

(** ** Summary lemmas for C10, C11 *)
Lemma mact_tra_iso t m : mact_tra t m = mact (Iso m3id t) m.
Proof. cases; vunf; ext; ring. Qed.
Lemma fact_tra_iso t f : fact_tra t f = fact (Iso m3id t) f.
Proof. cases; vunf; ext; ring. Qed.
Lemma iact_tra_iso t I : iact_tra t I = iact (Iso m3id t) I.
Proof. cases; vunf; ext; ring. Qed.
Lemma imul_momentum I m : imul I m = momentum I m.
Proof. unfold momentum. cases; vunf; ext; ring. Qed.
Lemma i6act_congr T A m : rigid T -> i6mul (i6act T A) (mact T m) = fact T (i6mul A m).
Proof. intros H. rewrite i6act_mul, mact_inv_l; auto. Qed.
Lemma flat_roundtrip I : isym I ->
  (let '(xx, yy, zz, xy, xz, yz) := I_com_flat I in inertia_flat (imass I) (icom I) xx yy zz xy xz yz) = I.
Proof.
  intros H. apply m3sym_entries in H. destruct I as [m c [[] [] []]]; cbn in *.
  destruct H as [-> [-> ->]]. reflexivity.
Qed.
Lemma flat_roundtrip' m c xx yy zz xy xz yz :
  I_com_flat (inertia_flat m c xx yy zz xy xz yz) = (xx, yy, zz, xy, xz, yz) /\
  isym (inertia_flat m c xx yy zz xy xz yz).
Proof. split; reflexivity. Qed.

End SpatialProofs.
