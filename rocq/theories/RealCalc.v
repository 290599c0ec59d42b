(** Differential calculus of transforms and motions over the reals. *)
From Coq Require Import List Arith ZArith Bool Lia Reals Lra.
From Verif Require Import Scalar Base Spatial SpecGeo Joint Body Kin InvDyn FwdDyn Opspace OpspaceAba Deriv Sim Ops Instances Specs SpecCache SpecKin SpecDyn SpecReal SpatialTac SpatialProofs JointProofs.
Import ListNotations.
Local Existing Instance RScal.
Ltac rr := repeat match goal with x : @K RScal |- _ => change R in x end; match goal with |- @eq _ ?a ?b => change (@eq R a b) end; cbn; ring.
Ltac runf := vunf; cbn [k0 k1 kadd kmul ksub kdiv kopp kinv RScal].

Local Open Scope R_scope.
Lemma d_eq f t a b : derivable_pt_lim f t a -> a = b -> derivable_pt_lim f t b.
Proof. intros H <-. auto. Qed.
Lemma d_ext f g t a : (forall u, f u = g u) -> derivable_pt_lim g t a -> derivable_pt_lim f t a.
Proof. intros E H eps He. destruct (H eps He) as [dl Hd]. exists dl. intros h. rewrite !E. apply Hd. Qed.
Lemma d_const c t : derivable_pt_lim (fun _ => c) t 0.
Proof. apply derivable_pt_lim_const. Qed.
Lemma d_id t : derivable_pt_lim (fun u => u) t 1.
Proof. apply derivable_pt_lim_id. Qed.
Lemma d_add f g t a b : derivable_pt_lim f t a -> derivable_pt_lim g t b -> derivable_pt_lim (fun u => f u + g u) t (a + b).
Proof. apply derivable_pt_lim_plus. Qed.
Lemma d_sub f g t a b : derivable_pt_lim f t a -> derivable_pt_lim g t b -> derivable_pt_lim (fun u => f u - g u) t (a - b).
Proof. apply derivable_pt_lim_minus. Qed.
Lemma d_opp f t a : derivable_pt_lim f t a -> derivable_pt_lim (fun u => - f u) t (- a).
Proof. apply derivable_pt_lim_opp. Qed.
Lemma d_mul f g t a b : derivable_pt_lim f t a -> derivable_pt_lim g t b -> derivable_pt_lim (fun u => f u * g u) t (a * g t + f t * b).
Proof. apply derivable_pt_lim_mult. Qed.
Lemma d_cos f t a : derivable_pt_lim f t a -> derivable_pt_lim (fun u => cos (f u)) t (- sin (f t) * a).
Proof. intros H. apply (derivable_pt_lim_comp f cos); auto. apply derivable_pt_lim_cos. Qed.
Lemma d_sin f t a : derivable_pt_lim f t a -> derivable_pt_lim (fun u => sin (f u)) t (cos (f t) * a).
Proof. intros H. apply (derivable_pt_lim_comp f sin); auto. apply derivable_pt_lim_sin. Qed.
Ltac dstep := first [eassumption | apply d_const | apply d_add | apply d_sub | apply d_mul | apply d_opp | apply d_cos | apply d_sin].
Ltac dgo := eapply d_eq; [repeat dstep|].
Ltac vun := cbv beta delta [v3zero v3add v3sub v3opp v3scale v3dot v3cross m3zero m3id m3add m3mul m3tr m3mulv]; cbn [vx vy vz r0 r1 r2 k0 k1 kadd kmul ksub kdiv kopp kinv ksin kcos RScal].
Ltac dfin := vun; match goal with |- @eq _ ?a ?b => change (@eq R a b) end; ring.
(** Spread hypotheses about vectors over components. *)
Ltac dsplit := repeat match goal with
  | H : v3_deriv _ _ _ |- _ => destruct H as (? & ? & ?)
  | H : m3_deriv _ _ _ |- _ => destruct H as (? & ? & ?)
  end; repeat match goal with |- v3_deriv _ _ _ => split; [|split] | |- m3_deriv _ _ _ => split; [|split] end.

Lemma v3_deriv_ext f g t d : (forall u, f u = g u) -> v3_deriv g t d -> v3_deriv f t d.
Proof. intros E (H1 & H2 & H3). split; [|split]; (eapply d_ext; [intros u; rewrite E; reflexivity|auto]). Qed.
Lemma m3_deriv_ext f g t d : (forall u, f u = g u) -> m3_deriv g t d -> m3_deriv f t d.
Proof. intros E (H1 & H2 & H3). split; [|split]; (eapply v3_deriv_ext; [intros u; rewrite E; reflexivity|auto]). Qed.
Lemma v3_deriv_const c t : v3_deriv (fun _ => c) t v3zero.
Proof. split; [|split]; apply d_const. Qed.
Lemma m3_deriv_const c t : m3_deriv (fun _ => c) t m3zero.
Proof. split; [|split]; apply v3_deriv_const. Qed.
Lemma v3_deriv_add f g t a b : v3_deriv f t a -> v3_deriv g t b -> v3_deriv (fun u => v3add (f u) (g u)) t (v3add a b).
Proof. intros; dsplit; cbn; dgo; reflexivity. Qed.
Lemma v3_deriv_sub f g t a b : v3_deriv f t a -> v3_deriv g t b -> v3_deriv (fun u => v3sub (f u) (g u)) t (v3sub a b).
Proof. intros; dsplit; cbn; dgo; reflexivity. Qed.
Lemma v3_deriv_opp f t a : v3_deriv f t a -> v3_deriv (fun u => v3opp (f u)) t (v3opp a).
Proof. intros; dsplit; cbn; dgo; reflexivity. Qed.
Lemma v3_deriv_scale (c : R -> R) f t c' a : derivable_pt_lim c t c' -> v3_deriv f t a ->
  v3_deriv (fun u => v3scale (c u) (f u)) t (v3add (v3scale c' (f t)) (v3scale (c t) a)).
Proof. intros; dsplit; cbn; dgo; reflexivity. Qed.
Lemma v3_deriv_cross f g t a b : v3_deriv f t a -> v3_deriv g t b ->
  v3_deriv (fun u => v3cross (f u) (g u)) t (v3add (v3cross a (g t)) (v3cross (f t) b)).
Proof. intros; dsplit; vun; dgo; dfin. Qed.
Lemma v3_deriv_dot f g t a b : v3_deriv f t a -> v3_deriv g t b ->
  derivable_pt_lim (fun u => v3dot (f u) (g u)) t (v3dot a (g t) + v3dot (f t) b).
Proof. intros; dsplit; vun; dgo; dfin. Qed.
Lemma v3_deriv_mulv A f t A' a : m3_deriv A t A' -> v3_deriv f t a ->
  v3_deriv (fun u => m3mulv (A u) (f u)) t (v3add (m3mulv A' (f t)) (m3mulv (A t) a)).
Proof. intros; dsplit; vun; dgo; dfin. Qed.
Lemma m3_deriv_tr A t A' : m3_deriv A t A' -> m3_deriv (fun u => m3tr (A u)) t (m3tr A').
Proof. intros; dsplit; cbn; assumption. Qed.
Lemma m3_deriv_mul A B t A' B' : m3_deriv A t A' -> m3_deriv B t B' ->
  m3_deriv (fun u => m3mul (A u) (B u)) t (m3add (m3mul A' (B t)) (m3mul (A t) B')).
Proof. intros; dsplit; vun; dgo; dfin. Qed.
Lemma v3_deriv_eq f t a b : v3_deriv f t a -> a = b -> v3_deriv f t b.
Proof. intros H <-. auto. Qed.
Lemma m3_deriv_eq f t a b : m3_deriv f t a -> a = b -> m3_deriv f t b.
Proof. intros H <-. auto. Qed.

(** Transforms: [T] moves with the body twist [V]. *)
Definition iso_deriv (T : R -> iso) (t : R) (V : motion) : Prop :=
  m3_deriv (fun u => rot (T u)) t (m3mul (rot (T t)) (skew (mang V))) /\
  v3_deriv (fun u => tra (T u)) t (m3mulv (rot (T t)) (mlin V)).
Lemma iso_deriv_ext f g t d : (forall u, f u = g u) -> iso_deriv g t d -> iso_deriv f t d.
Proof.
  intros E [H1 H2]. unfold iso_deriv. rewrite (E t). split.
  - eapply m3_deriv_ext; [intros u; rewrite E; reflexivity|auto].
  - eapply v3_deriv_ext; [intros u; rewrite E; reflexivity|auto].
Qed.
Lemma iso_deriv_eq f t a b : iso_deriv f t a -> a = b -> iso_deriv f t b.
Proof. intros H <-. auto. Qed.
Lemma iso_deriv_const c t : iso_deriv (fun _ => c) t mzero.
Proof.
  split; [eapply m3_deriv_eq; [apply m3_deriv_const|]|eapply v3_deriv_eq; [apply v3_deriv_const|]];
    destruct c as [A b]; cases; unfold skew; runf; ext; rr.
Qed.
Lemma skew_mul w v : m3mulv (skew w) v = v3cross w v.
Proof. cases; unfold skew; runf; ext; rr. Qed.
Lemma m3_ext (A B : m3) : (forall v, m3mulv A v = m3mulv B v) -> A = B.
Proof.
  intros H. pose proof (H (V3 1 0 0)) as H1. pose proof (H (V3 0 1 0)) as H2. pose proof (H (V3 0 0 1)) as H3. clear H.
  destruct A as [[a1 a2 a3] [a4 a5 a6] [a7 a8 a9]], B as [[b1 b2 b3] [b4 b5 b6] [b7 b8 b9]]. revert H1 H2 H3. runf. intros H1 H2 H3.
  assert (X : forall a b c d e f : R, V3 a b c = V3 d e f -> a = d /\ b = e /\ c = f) by (intros * E; inversion E; auto).
  apply X in H1, H2, H3. destruct H1 as (P1 & P2 & P3), H2 as (P4 & P5 & P6), H3 as (P7 & P8 & P9).
  repeat match goal with x : @K RScal |- _ => change R in x end.
  ext; match goal with |- @eq _ ?a ?b => change (@eq R a b) end; lra.
Qed.
Lemma rot_skew B w : is_rot B -> m3mul (skew w) B = m3mul B (skew (m3mulv (m3tr B) w)).
Proof.
  intros H. apply m3_ext. intros v. rewrite !m3mulv_mul, !skew_mul, <- rot_cross by auto. rewrite rot_mulv_tr by auto. auto.
Qed.
Lemma m3mulv_add (A : m3) a b : m3mulv A (v3add a b) = v3add (m3mulv A a) (m3mulv A b).
Proof. cases; runf; ext; rr. Qed.
Lemma iso_deriv_mul A B t VA VB : iso_deriv A t VA -> iso_deriv B t VB -> rigid (B t) ->
  iso_deriv (fun u => iso_mul (A u) (B u)) t (madd (mact (iso_inv (B t)) VA) VB).
Proof.
  intros [A1 A2] [B1 B2] RB. unfold rigid in RB. split.
  - cbn [iso_mul rot]. eapply m3_deriv_eq; [apply m3_deriv_mul; eassumption|].
    cbn [madd mact mang iso_inv rot]. 
    assert (E : forall X Y v w, m3add (m3mul (m3mul X (skew v)) Y) (m3mul X (m3mul Y (skew w))) = m3mul X (m3add (m3mul (skew v) Y) (m3mul Y (skew w))))
      by (intros; cases; unfold skew; runf; ext; rr).
    rewrite E, rot_skew by auto. rewrite m3mul_assoc. f_equal.
    generalize (rot (B t)) (m3mulv (m3tr (rot (B t))) (mang VA)) (mang VB). intros; cases; unfold skew; runf; ext; rr.
  - cbn [iso_mul tra rot]. eapply v3_deriv_eq; [apply v3_deriv_add; [apply v3_deriv_mulv; eassumption|eassumption]|].
    cbn [madd mact mlin iso_inv rot tra]. rewrite !m3mulv_mul, skew_mul, <- !m3mulv_add.
    assert (E : v3sub (m3mulv (m3tr (rot (B t))) (mlin VA)) (v3cross (m3mulv (m3tr (rot (B t))) (mang VA)) (v3opp (m3mulv (m3tr (rot (B t))) (tra (B t))))) =
                m3mulv (m3tr (rot (B t))) (v3add (mlin VA) (v3cross (mang VA) (tra (B t))))).
    { rewrite m3mulv_add, <- rot_cross by (apply is_rot_tr; auto). cases; runf; ext; rr. }
    rewrite E, (m3mulv_add (rot (B t))), rot_mulv_tr by auto.
    generalize (rot (A t)) (mang VA) (tra (B t)) (m3mulv (rot (B t)) (mlin VB)) (mlin VA). intros; cases; runf; ext; rr.
Qed.

(** Joints. *)
Lemma joint_deriv (j : @joint RScal) (q : R -> R) t q' : jsub j = subspace_of (jtyp j) -> derivable_pt_lim q t q' ->
  iso_deriv (fun u => T_joint j (q u)) t (mscale q' (jsub j)).
Proof.
  intros -> H. unfold T_joint. destruct (jtyp j); unfold iso_deriv;
    cbv [angle_axis subspace_of rot tra mscale mlin mang skew v3scale v3zero vx vy vz ex ey ez m3id m3mul m3mulv m3tr v3dot r0 r1 r2 iso_id mzero v3_deriv m3_deriv];
    cbn [k0 k1 kadd kmul ksub kdiv kopp kinv ksin kcos RScal];
    repeat split; dgo; rr.
Qed.

(** Motions. *)
Definition mot_deriv (f : R -> motion) (t : R) (d : motion) : Prop :=
  v3_deriv (fun u => mlin (f u)) t (mlin d) /\ v3_deriv (fun u => mang (f u)) t (mang d).
Lemma mot_deriv_eq f t a b : mot_deriv f t a -> a = b -> mot_deriv f t b.
Proof. intros H <-. auto. Qed.
Lemma mot_deriv_ext f g t d : (forall u, f u = g u) -> mot_deriv g t d -> mot_deriv f t d.
Proof. intros E [H1 H2]. split; (eapply v3_deriv_ext; [intros u; rewrite E; reflexivity|auto]). Qed.
Lemma mot_deriv_const c t : mot_deriv (fun _ => c) t mzero.
Proof. split; apply v3_deriv_const. Qed.
Lemma mot_deriv_add f g t a b : mot_deriv f t a -> mot_deriv g t b -> mot_deriv (fun u => madd (f u) (g u)) t (madd a b).
Proof. intros [] []. split; apply v3_deriv_add; auto. Qed.
Lemma mot_deriv_scale (c : R -> R) (m : motion) t c' : derivable_pt_lim c t c' -> mot_deriv (fun u => mscale (c u) m) t (mscale c' m).
Proof.
  intros H. split; (eapply v3_deriv_eq; [apply v3_deriv_scale; [eassumption|apply v3_deriv_const]|]); cases; cbn [mscale mlin mang]; runf; ext; rr.
Qed.
(** A motion seen from a moving frame. *)
Lemma mot_deriv_into T f t V a : iso_deriv T t V -> mot_deriv f t a -> rigid (T t) ->
  mot_deriv (fun u => mact (iso_inv (T u)) (f u)) t (msub (mact (iso_inv (T t)) a) (mcross V (mact (iso_inv (T t)) (f t)))).
Proof.
  intros [T1 T2] [F1 F2] RT. apply m3_deriv_tr in T1.
  assert (W : v3_deriv (fun u => m3mulv (m3tr (rot (T u))) (mang (f u))) t
     (v3add (m3mulv (m3tr (m3mul (rot (T t)) (skew (mang V)))) (mang (f t))) (m3mulv (m3tr (rot (T t))) (mang a)))) by (apply v3_deriv_mulv; auto).
  assert (SK : forall x, m3mulv (m3tr (m3mul (rot (T t)) (skew (mang V)))) x = v3opp (v3cross (mang V) (m3mulv (m3tr (rot (T t))) x))).
  { intros x. rewrite m3tr_mul, m3mulv_mul. generalize (m3mulv (m3tr (rot (T t))) x) (mang V). intros; cases; unfold skew; runf; ext; rr. }
  split.
  - cbn [mact mlin mang iso_inv rot tra]. eapply v3_deriv_eq.
    + apply v3_deriv_sub; [apply v3_deriv_mulv; eassumption|]. apply v3_deriv_cross; [exact W|]. apply v3_deriv_opp, v3_deriv_mulv; eassumption.
    + rewrite !SK. rewrite (rot_tr_mulv (rot (T t))) by exact RT.
      cbn [msub mlin mang mcross mact iso_inv rot tra]. rewrite mcross_vec. cbn [mlin mang]. cbn [mact iso_inv rot tra mlin mang].
      generalize (m3mulv (m3tr (rot (T t))) (mlin (f t))) (m3mulv (m3tr (rot (T t))) (mang (f t))) (m3mulv (m3tr (rot (T t))) (mlin a))
        (m3mulv (m3tr (rot (T t))) (mang a)) (m3mulv (m3tr (rot (T t))) (tra (T t))) (mlin V) (mang V).
      intros; cases; runf; ext; rr.
  - cbn [mact mang iso_inv rot]. eapply v3_deriv_eq; [exact W|]. rewrite SK. rewrite mcross_vec. cbn [msub mang mact iso_inv rot].
    generalize (m3mulv (m3tr (rot (T t))) (mang (f t))) (m3mulv (m3tr (rot (T t))) (mang a)) (mang V). intros; cases; runf; ext; rr.
Qed.
(** Kinetic energy of a body whose inertia is constant in its own frame. *)
Lemma energy_deriv (B : inertia) f t a : isym B -> mot_deriv f t a ->
  derivable_pt_lim (fun u => @mdot RScal (f u) (imul B (f u))) t (2 * @mdot RScal (f t) (imul B a)).
Proof.
  intros SB [H1 H2].
  assert (E : forall x y, @mdot RScal x (imul B y) = @mdot RScal y (imul B x)) by (intros; apply imul_sym; auto).
  destruct H1 as (? & ? & ?), H2 as (? & ? & ?).
  eapply d_eq.
  - unfold mdot, imul. cbv [v3add v3sub v3cross v3scale v3dot m3mulv flin fang vx vy vz]. cbn [k0 k1 kadd kmul ksub kdiv kopp kinv RScal].
    repeat first [eassumption | apply d_const | apply d_add | apply d_sub | apply d_mul | apply d_opp].
  - transitivity (@mdot RScal a (imul B (f t)) + @mdot RScal (f t) (imul B a)); [|rewrite (E a (f t)); ring].
    unfold mdot, imul. destruct B as [m [c1 c2 c3] [[i1 i2 i3] [i4 i5 i6] [i7 i8 i9]]], (f t) as [[x1 x2 x3] [x4 x5 x6]], a as [[y1 y2 y3] [y4 y5 y6]]. cbn. ring.
Qed.
