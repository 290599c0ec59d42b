(** Robots that differ only in how the mass of a link is described (C29). *)
From Coq Require Import List Arith ZArith Bool Lia.
From Verif Require Import Scalar Base Spatial Joint Body Kin InvDyn FwdDyn Opspace OpspaceAba Deriv Sim Ops Specs SpecCache SpecDyn TreeProofs CacheProofs CacheOps.
Import ListNotations.

Lemma for_up_ext {St} n (f g : nat -> St -> St) s : (forall i s, i < n -> f i s = g i s) -> for_up n f s = for_up n g s.
Proof. intros H. induction n; cbn; auto. rewrite IHn, H; auto. Qed.
Lemma for_down_ext {St} n (f g : nat -> St -> St) s : (forall i s, i < n -> f i s = g i s) -> for_down n f s = for_down n g s.
Proof. revert s. induction n; cbn; intros s H; auto. rewrite H, IHn; auto. Qed.
Lemma fold_left_ext {A B} (f g : A -> B -> A) l a : (forall a b, f a b = g a b) -> fold_left f l a = fold_left g l a.
Proof. intros H. revert a. induction l; cbn; intros; auto. rewrite H. auto. Qed.
Lemma existsb_ext {A} (f g : A -> bool) l : (forall a, f a = g a) -> existsb f l = existsb g l.
Proof. intros H. induction l; cbn; auto. rewrite H, IHl. auto. Qed.

Lemma bind_cong {A B} (x y : res A) (f : A -> res B) : x = y -> bind x f = bind y f.
Proof. intros ->. reflexivity. Qed.

Section Load.
Context {S : Scal}.
Variable solve : list (list K) -> list K -> list K.
Variable pinv : list (list K) -> K -> list (list K) * bool.
Local Open Scope k_scope.

Section Sim.
Variables a b : body.
Hypothesis Hd : ab_dof b = ab_dof a.
Hypothesis Hq : ab_q b = ab_q a.
Hypothesis Hdq : ab_dq b = ab_dq a.
Hypothesis Hg : ab_g b = ab_g a.
Hypothesis HB : ab_Tbase b = ab_Tbase a.
Hypothesis HA : ab_anc b = ab_anc a.
Hypothesis HS : ab_sub b = ab_sub a.
Hypothesis HC : ab_cache b = ab_cache a.
Hypothesis Hp : forall i, par b i = par a i.
Hypothesis HT : forall i, rb_T (rb_at b i) = rb_T (rb_at a i).
Hypothesis HJ : forall i, rb_joint (rb_at b i) = rb_joint (rb_at a i).

Lemma s_sub i : sub_at b i = sub_at a i. Proof. unfold sub_at. rewrite HJ. auto. Qed.
Lemma s_anc i : anc_at b i = anc_at a i. Proof. unfold anc_at. rewrite HA. auto. Qed.
Lemma s_subt i : subt_at b i = subt_at a i. Proof. unfold subt_at. rewrite HS. auto. Qed.
Lemma s_up i : up_chain b i = up_chain a i.
Proof. unfold up_chain. generalize (Datatypes.S i) (Some i). induction n; cbn; intros [j|]; auto. rewrite Hp, IHn. auto. Qed.
Lemma s_Tpq i q : T_par_q b i q = T_par_q a i q. Proof. unfold T_par_q. rewrite HT, HJ. auto. Qed.
Ltac rw := rewrite ?Hd, ?Hq, ?Hdq, ?Hg, ?HB, ?Hp, ?HT, ?HJ, ?s_sub, ?s_anc, ?s_subt, ?s_up, ?s_Tpq.
Lemma s_child : has_child b = has_child a. Proof. unfold has_child. rw. apply existsb_ext. intros; rw; auto. Qed.
Lemma s_root : has_root b = has_root a. Proof. unfold has_root. rw. apply existsb_ext. intros; rw; auto. Qed.
Lemma s_ext fe : has_ext b fe = has_ext a fe. Proof. unfold has_ext. rw. auto. Qed.
Lemma s_Tp c : ensure_Tp b c = ensure_Tp a c.
Proof. unfold ensure_Tp. rw. erewrite for_up_ext; [reflexivity|]. intros; cbn; rw. auto. Qed.
Lemma s_Tw c : ensure_Tw b c = ensure_Tw a c.
Proof. unfold ensure_Tw. rewrite s_Tp. rw. erewrite for_up_ext; [reflexivity|]. intros; unfold Tw_step; rw. auto. Qed.
Lemma s_jacl Tw l o : jac_loop b Tw l o = jac_loop a Tw l o.
Proof. unfold jac_loop. rw. apply fold_left_ext. intros; unfold jac_col; rw; auto. Qed.
Lemma s_jac l o c : ensure_jac b l o c = ensure_jac a l o c.
Proof. unfold ensure_jac. rewrite s_Tw, s_jacl. auto. Qed.
Lemma s_hess Tw J l : forall H, hess_loop b Tw J l H = hess_loop a Tw J l H.
Proof. induction l; cbn; intros; auto. rewrite IHl. rw. auto. Qed.
Lemma s_back Tp i st : back_step b Tp i st = back_step a Tp i st.
Proof. unfold back_step. destruct st. rw. auto. Qed.
Lemma s_backl n Tp st : for_down n (back_step b Tp) st = for_down n (back_step a Tp) st.
Proof. apply for_down_ext. intros; apply s_back. Qed.
Lemma s_vel Tp v d i : vel_at b Tp v d i = vel_at a Tp v d i.
Proof. unfold vel_at. rw. auto. Qed.
Lemma s_extt fe c : ext_torques b fe c = ext_torques a fe c.
Proof. unfold ext_torques. rewrite s_child, s_ext, s_Tp, s_Tw. rw. rewrite s_backl. reflexivity. Qed.
Lemma s_frica t cm e i : friction_arr b t cm e i = friction_arr a t cm e i.
Proof. unfold friction_arr. rw. auto. Qed.

(** Algorithms that see the link inertia including the load. *)
Section Inertia.
Hypothesis HI : forall i, (i < ab_dof a)%nat -> inertia_at b i = inertia_at a i.
Lemma s_cc c : ensure_cc b c = ensure_cc a c.
Proof.
  assert (X : forall Tp v st, for_up (ab_dof a) (cc_fwd_step b Tp v) st = for_up (ab_dof a) (cc_fwd_step a Tp v) st).
  { intros. apply for_up_ext. intros i [[w cc] f] Hi. unfold cc_fwd_step. rewrite s_vel. rw. rewrite HI by auto. reflexivity. }
  unfold ensure_cc. rewrite s_child, s_Tp. rw. rewrite X.
  destruct (for_up _ _ _) as [[v cc] f]. rewrite s_backl. reflexivity.
Qed.
Lemma s_grav c : ensure_grav b c = ensure_grav a c.
Proof.
  assert (X : forall Tw st, for_up (ab_dof a) (fun i f => upd f i (grav_f0 b Tw i)) st = for_up (ab_dof a) (fun i f => upd f i (grav_f0 a Tw i)) st).
  { intros. apply for_up_ext. intros i f Hi. unfold grav_f0. rw. rewrite HI by auto. reflexivity. }
  unfold ensure_grav. rewrite s_child, s_Tp, s_Tw. rw. rewrite s_backl, X. reflexivity.
Qed.
Lemma s_crba c : ensure_crba b c = ensure_crba a c.
Proof.
  assert (X : forall st, for_up (ab_dof a) (fun i f => upd f i (inertia_at b i)) st = for_up (ab_dof a) (fun i f => upd f i (inertia_at a i)) st).
  { intros. apply for_up_ext. intros i f Hi. rewrite HI by auto. reflexivity. }
  assert (Y : forall Tp st, for_down (ab_dof a) (crba_step b Tp) st = for_down (ab_dof a) (crba_step a Tp) st).
  { intros. apply for_down_ext. intros i [Ic A] Hi. unfold crba_step. rw. 
    rewrite (fold_left_ext (crba_up b Tp i) (crba_up a Tp i)); [reflexivity|].
    intros [[ch f] A'] j. unfold crba_up. rw. reflexivity. }
  unfold ensure_crba. rewrite s_child, s_Tp. rw. rewrite X, Y. reflexivity.
Qed.
Definition peq {A} (x y : cache * arr A) : Prop := fst x = fst y /\ forall i, snd x i = snd y i.
Lemma peq_refl {A} (x : cache * arr A) : peq x x. Proof. split; auto. Qed.
Lemma s_id ddq fe o c : peq (inverse_dynamics b ddq fe o c) (inverse_dynamics a ddq fe o c).
Proof.
  unfold inverse_dynamics. destruct (_ && _ && _).
  - rewrite s_extt. destruct (ext_torques a fe c) as [c' e]. rw. split; cbn; auto. intros i.
    destruct (o_fric o); [rewrite s_frica|]; auto.
  - rewrite s_child, s_root, s_ext, s_Tw, s_Tp. rw.
    assert (X : forall Tp Tw v st, for_up (ab_dof a) (id_fwd_step b Tp Tw v o ddq fe) st = for_up (ab_dof a) (id_fwd_step a Tp Tw v o ddq fe) st).
    { intros. apply for_up_ext. intros i [[w acc] f] Hi. unfold id_fwd_step. rewrite s_vel. rw. rewrite HI by auto. reflexivity. }
    rewrite X. destruct (for_up _ _ _) as [[v acc] f]. rewrite s_backl. destruct (for_down _ _ _) as [t f']. split; cbn; auto. intros i.
    destruct (o_fric o); [rewrite s_frica|]; auto.
Qed.
Lemma s_crbai c : ensure_crba_inv b c = ensure_crba_inv a c.
Proof. unfold ensure_crba_inv. rewrite s_crba. auto. Qed.
Lemma s_fd tau fe o c : forward_dynamics solve b tau fe o c = forward_dynamics solve a tau fe o c.
Proof.
  unfold forward_dynamics. rw. pose proof (s_id (vec (ab_dof a) (fun _ => 0)) fe (IdOpts (o_grav o) (o_cc o) false (klit 1 100)) c) as [E1 E2].
  destruct (inverse_dynamics b _ _ _ c) as [c1 t1], (inverse_dynamics a _ _ _ c) as [c2 t2]. cbn in *. subst c2.
  rewrite s_crbai. f_equal. f_equal. apply vec_ext. intros i Hi. destruct (o_fric o); [rewrite s_frica; unfold friction_arr|]; rewrite E2; auto.
Qed.
Lemma s_abai Tp x i st : aba_inertia b Tp x i st = aba_inertia a Tp x i st.
Proof. unfold aba_inertia. destruct st as [[Ia h] d]. rw. auto. Qed.
Lemma s_aba tau fe o c : forward_dynamics_aba b tau fe o c = forward_dynamics_aba a tau fe o c.
Proof.
  assert (X : forall Tp Tw v x st, for_up (ab_dof a) (aba_fwd_step b Tp Tw v x o fe) st = for_up (ab_dof a) (aba_fwd_step a Tp Tw v x o fe) st).
  { intros. apply for_up_ext. intros i [[[w acc] Ia] f] Hi. unfold aba_fwd_step. rewrite s_vel. rw. rewrite HI by auto. reflexivity. }
  assert (Y : forall Tp x y st, for_down (ab_dof a) (aba_back_step b Tp x o tau y) st = for_down (ab_dof a) (aba_back_step a Tp x o tau y) st).
  { intros. apply for_down_ext. intros i [[[[Ia' h] d] f'] dd] Hi. unfold aba_back_step. rewrite s_abai. destruct (aba_inertia a _ _ _ _) as [[Ia2 h2] d2]. unfold aba_tau. rw. reflexivity. }
  assert (Z : forall Tp h d st, for_up (ab_dof a) (aba_last_step b Tp o h d) st = for_up (ab_dof a) (aba_last_step a Tp o h d) st).
  { intros. apply for_up_ext. intros i [x y] Hi. unfold aba_last_step. rw. reflexivity. }
  unfold forward_dynamics_aba. rewrite s_child, s_root, s_ext, s_Tw, s_Tp. rw. rewrite X.
  destruct (for_up _ _ _) as [[[v acc] Ia] f]. rewrite Y.
  destruct (for_down _ _ _) as [[[[Ia' h] d] f'] dd]. rewrite Z. reflexivity.
Qed.
Lemma s_Ainv c : ensure_Ainv b c = ensure_Ainv a c.
Proof.
  assert (X : forall st, for_up (ab_dof a) (fun i x => upd x i (i6_of (inertia_at b i))) st = for_up (ab_dof a) (fun i x => upd x i (i6_of (inertia_at a i))) st).
  { intros. apply for_up_ext. intros i x Hi. rewrite HI by auto. reflexivity. }
  assert (Y : forall Tp x st, for_down (ab_dof a) (ainv_back_step b Tp x) st = for_down (ab_dof a) (ainv_back_step a Tp x) st).
  { intros. apply for_down_ext. intros i [[[Ia h] d] XP] Hi. unfold ainv_back_step. rewrite s_abai. destruct (aba_inertia a _ _ _ _) as [[Ia2 h2] d2]. rw.
    rewrite (fold_left_ext (ainv_back_inner b Tp h2 d2 i) (ainv_back_inner a Tp h2 d2 i)); [reflexivity|]. intros [X' P] j. unfold ainv_back_inner. rw. reflexivity. }
  assert (Z : forall Tp h d st, for_up (ab_dof a) (fun i st => fold_left (ainv_last_inner b Tp h d i) (subt_at b i) st) st = for_up (ab_dof a) (fun i st => fold_left (ainv_last_inner a Tp h d i) (subt_at a i) st) st).
  { intros. apply for_up_ext. intros i st' Hi. rw. apply fold_left_ext. intros [X' A'] j. unfold ainv_last_inner. rw. reflexivity. }
  unfold ensure_Ainv. rewrite s_child, s_Tp. rw. rewrite X, Y.
  destruct (for_down _ _ _) as [[[Ia h] d] [X' P]]. rewrite Z. reflexivity.
Qed.
Lemma s_idr ddq fe o c : id_rnea b ddq fe o c = id_rnea a ddq fe o c.
Proof.
  unfold id_rnea. destruct (s_id ddq fe o (clear_crba c)) as [E _]. destruct (inverse_dynamics b _ _ _ _), (inverse_dynamics a _ _ _ _). cbn in E. subst. auto.
Qed.

Lemma s_opsi J c : ops_inertia_inverse solve b J c = ops_inertia_inverse solve a J c.
Proof. unfold ops_inertia_inverse. rewrite s_crbai. rw. auto. Qed.
Lemma s_ops J e c : ops_inertia solve pinv b J e c = ops_inertia solve pinv a J e c.
Proof. unfold ops_inertia. rewrite s_opsi. auto. Qed.
Lemma s_jbar J e c : ops_jbar solve pinv b J e c = ops_jbar solve pinv a J e c.
Proof. unfold ops_jbar. rewrite s_ops. rw. auto. Qed.
Lemma s_jbart J c x : jbar_t b J c x = jbar_t a J c x.
Proof. unfold jbar_t. rw. auto. Qed.
Lemma s_opscc J l e c : ops_cc solve pinv b J l e c = ops_cc solve pinv a J l e c.
Proof.
  unfold ops_cc. destruct (negb _); [reflexivity|]. rw. destruct (idx _ _) as [i|]; [|reflexivity]. cbn zeta. rewrite s_jbar. rewrite s_cc. rewrite s_jbart. rewrite s_ops. rewrite s_Tw. reflexivity.
Qed.
Lemma s_opsg J e c : ops_gravity solve pinv b J e c = ops_gravity solve pinv a J e c.
Proof. unfold ops_gravity. rewrite s_jbar, s_grav, s_jbart. rw. auto. Qed.
Lemma s_opse J fe e c : ops_external solve pinv b J fe e c = ops_external solve pinv a J fe e c.
Proof. unfold ops_external. rewrite s_jbar, s_extt. destruct (ext_torques a fe _). rewrite s_jbart. rw. auto. Qed.
Lemma s_opsf J t e s c : ops_friction solve pinv b J t e s c = ops_friction solve pinv a J t e s c.
Proof.
  unfold ops_friction. rewrite s_jbar, s_jbart. rw. f_equal. f_equal. apply vec_ext. intros. apply s_frica.
Qed.
Lemma s_opsid J ddx N fe e o c : ops_inverse_dynamics solve pinv b J ddx N fe e o c = ops_inverse_dynamics solve pinv a J ddx N fe e o c.
Proof.
  unfold ops_inverse_dynamics. rw. rewrite s_ops.
  set (Jx := match N with Some ((_ :: _) as M) => lmul _ _ _ J M | _ => J end). clearbody Jx.
  rewrite s_opse. destruct (if e then _ else _) as [c1 F1]. rewrite s_opsg. destruct (if p_grav o then _ else _) as [c2 F2].
  rewrite s_opscc. match goal with |- bind ?x _ = bind ?y _ => change y with x; destruct x as [[c3 F3]| |] end; cbn [bind]; [|reflexivity|reflexivity]. rewrite s_opsf. match goal with |- context [if p_fric o then ?x else ?y] => destruct (if p_fric o then x else y) as [c4 F4] end.
  destruct N; [|reflexivity]. rewrite s_jbar. reflexivity.
Qed.
Lemma s_veld ddq fe o c : velocity_derivative b ddq fe o c = velocity_derivative a ddq fe o c.
Proof.
  assert (X : forall Tp v st, for_up (ab_dof a) (vd_fwd_step b Tp v) st = for_up (ab_dof a) (vd_fwd_step a Tp v) st).
  { intros. apply for_up_ext. intros i [[dv da] df] Hi. unfold vd_fwd_step. rw. rewrite HI by auto. reflexivity. }
  assert (Y : forall Tp st, for_down (ab_dof a) (vd_back_step b Tp) st = for_down (ab_dof a) (vd_back_step a Tp) st).
  { intros. apply for_down_ext. intros i [dt df] Hi. unfold vd_back_step. rw. reflexivity. }
  unfold velocity_derivative. destruct (negb _); [reflexivity|]. rw. rewrite s_idr, s_child, s_Tp, X.
  destruct (for_up _ _ _) as [[dv da] df]. rewrite Y. reflexivity.
Qed.

Lemma out_cache {A} (f g : cache -> res (cache * A)) : (forall c, bind (f c) (fun '(_, x) => Ok x) = bind (g c) (fun '(_, x) => Ok x)) ->
  outcome (on_cache b f) = outcome (on_cache a g).
Proof. intros H. rewrite !outcome_on_cache, HC. destruct (ab_cache a); auto. Qed.
Lemma out_J {A} J (f g : cache -> res (cache * A)) : (forall c, bind (f c) (fun '(_, x) => Ok x) = bind (g c) (fun '(_, x) => Ok x)) ->
  outcome (with_J J b f) = outcome (with_J J a g).
Proof. intros H. unfold with_J. rw. destruct (shape _ _ _); [apply out_cache; auto|reflexivity]. Qed.
Lemma o_Tw z : outcome (q_T_to_world z b) = outcome (q_T_to_world z a).
Proof. apply out_cache. intros c. rw. destruct (idx _ _); [|reflexivity]. rewrite s_Tw. reflexivity. Qed.
Lemma o_Jac z o : outcome (q_Jacobian z o b) = outcome (q_Jacobian z o a).
Proof. apply out_cache. intros c. rw. destruct (idx _ _); [|reflexivity]. rewrite s_jac. reflexivity. Qed.
Lemma o_Jac' z o : outcome (bind (q_Jacobian z o b) (fun '(ab, J) => Ok (ab, map mang J))) = outcome (bind (q_Jacobian z o a) (fun '(ab, J) => Ok (ab, map mang J))).
Proof.
  pose proof (o_Jac z o) as E. destruct (q_Jacobian z o b) as [[? ?]| |], (q_Jacobian z o a) as [[? ?]| |]; cbn in *; congruence.
Qed.

Lemma sim_outcome q : sees_load q = true ->
  outcome (ask solve pinv q b) = outcome (ask solve pinv q a).
Proof.
  intros Q. destruct q; try discriminate Q; cbn [ask]; rewrite !outcome_wrap.
  - apply bind_cong. apply out_cache. intros c. rw. destruct (idx _ _); [|reflexivity]. rewrite s_Tp. reflexivity.
  - rewrite o_Tw. reflexivity.
  - rewrite !out_Pos, o_Tw. reflexivity.
  - rewrite !out_Ori, o_Tw. reflexivity.
  - rewrite !out_Pose, o_Tw. reflexivity.
  - rewrite o_Jac. reflexivity.
  - rewrite !out_Lin, o_Jac. reflexivity.
  - unfold q_AngularJacobian. rewrite HC. case (ab_cache a); [intros c|reflexivity]. rewrite o_Jac'. reflexivity.
  - apply bind_cong. apply out_cache. intros c. rw. destruct (idx _ _); [|reflexivity]. cbn zeta. rw. rewrite s_jac, s_Tw, s_hess. reflexivity.
  - apply bind_cong. apply out_cache. intros c. rw. rewrite s_cc. reflexivity.
  - apply bind_cong. apply out_cache. intros c. rw. rewrite s_grav. reflexivity.
  - apply bind_cong. apply out_cache. intros c. rw. rewrite s_extt. reflexivity.
  - apply bind_cong. apply out_cache. intros c. rw. rewrite s_crba. reflexivity.
  - apply bind_cong. apply out_cache. intros c. rw. rewrite s_crba. reflexivity.
  - apply bind_cong. unfold q_InertiaInverse_solve. rw. destruct (Nat.eqb _ _); [|reflexivity]. apply out_cache. intros c. rewrite s_crbai. reflexivity.
  - apply bind_cong. unfold q_InverseDynamics. rw. destruct (Nat.eqb _ _); [|reflexivity]. apply out_cache. intros c.
    pose proof (s_id ddq fe o c) as [_ E]. destruct (inverse_dynamics b _ _ _ _), (inverse_dynamics a _ _ _ _). cbn [bind fst snd] in *. f_equal. apply vec_ext. auto.
  - apply bind_cong. unfold q_ForwardDynamics. rw. destruct (Nat.eqb _ _); [|reflexivity]. apply out_cache. intros c. rewrite s_fd. reflexivity.
  - apply bind_cong. unfold q_ForwardDynamicsAba. rw. destruct (Nat.eqb _ _); [|reflexivity]. apply out_cache. intros c. rewrite s_aba. reflexivity.
  - apply bind_cong. apply out_cache. intros c. rw. rewrite s_Ainv. reflexivity.
  - apply bind_cong. unfold q_VelocityDerivative. rw. destruct (o_cc o); [destruct (Nat.eqb _ _); [|reflexivity]|]; (apply out_cache; intros c; rewrite s_veld; reflexivity).
  - apply bind_cong. unfold q_PositionDerivative. rw. destruct (Nat.eqb _ _); [|reflexivity]. apply out_cache. intros c. rewrite s_child.
    destruct (_ && _); [reflexivity|]. rewrite s_idr, s_root, s_ext, s_Tw.
    assert (X : forall Tw st, for_up (ab_dof a) (fun i f => match fe i with None => f | Some x => upd f i (fsub (f i) (fcross (sub_at b i) (fact (iso_inv (Tw i)) x))) end) st =
      for_up (ab_dof a) (fun i f => match fe i with None => f | Some x => upd f i (fsub (f i) (fcross (sub_at a i) (fact (iso_inv (Tw i)) x))) end) st).
    { intros. apply for_up_ext. intros i f Hi. rw. reflexivity. }
    rewrite X. cbn [bind]. f_equal. apply mat_ext. intros i j Hi Hj. unfold pd_root_col. rw. rewrite HI by auto. reflexivity.
  - apply bind_cong. apply out_J. intros c. rewrite s_opsi. reflexivity.
  - apply bind_cong. apply out_J. intros c. rewrite s_ops. reflexivity.
  - apply bind_cong. apply out_J. intros c. rewrite s_jbar. reflexivity.
  - apply bind_cong. apply out_J. intros c. rewrite s_ops. reflexivity.
  - apply bind_cong. apply out_J. intros c. rewrite s_opscc. reflexivity.
  - apply bind_cong. apply out_J. intros c. rewrite s_opsg. reflexivity.
  - apply bind_cong. apply out_J. intros c. rewrite s_opse. reflexivity.
  - apply bind_cong. unfold q_ops_Friction. rw. destruct (Nat.ltb _ _); [reflexivity|]. apply out_J. intros c. rewrite s_opsf. reflexivity.
  - apply bind_cong. unfold q_ops_InverseDynamics. destruct (negb _); [reflexivity|]. rw.
    destruct N as [[|r M]|]; [|destruct (shape (ab_dof a) _ _); [|reflexivity]|]; (apply out_J; intros c; rewrite s_opsid; reflexivity).
Qed.
End Inertia.

(** Algorithms that use the link inertia without the load. *)
Section Bare.
Hypothesis HR : forall i, rb_inertia (rb_at b i) = rb_inertia (rb_at a i).
Lemma s_abai' Tp x i st : aba_inertia b Tp x i st = aba_inertia a Tp x i st.
Proof. unfold aba_inertia. destruct st as [[Ia h] d]. rw. auto. Qed.
Lemma s_oai l o c : oa_inertia_inverse b l o c = oa_inertia_inverse a l o c.
Proof.
  assert (X : forall Tw x st, for_up (ab_dof a) (oa_fwd_step b Tw x l) st = for_up (ab_dof a) (oa_fwd_step a Tw x l) st).
  { intros. apply for_up_ext. intros i [Ia p] Hi. unfold oa_fwd_step. rewrite HR. reflexivity. }
  assert (Y : forall Tp x st, for_down (ab_dof a) (oa_back_step b Tp x) st = for_down (ab_dof a) (oa_back_step a Tp x) st).
  { intros. apply for_down_ext. intros i [[[Ia h] d] [p u]] Hi. unfold oa_back_step. rewrite s_abai'. destruct (aba_inertia a _ _ _ _) as [[Ia2 h2] d2]. rw. reflexivity. }
  unfold oa_inertia_inverse. rewrite s_Tw, s_Tp. rw. rewrite X. destruct (for_up _ _ _) as [Ia p]. rewrite Y. destruct (for_down _ _ _) as [[[Ia2 h] d] [p2 u]].
  destruct (_ && _ && _); [reflexivity|]. f_equal. f_equal. unfold mat. apply map_ext. intros i. apply map_ext. intros k. f_equal. f_equal. f_equal.
  unfold oa_acc. apply fold_left_ext. intros. cbn zeta. rw. reflexivity.
Qed.
Lemma s_oa l o e c : oa_inertia pinv b l o e c = oa_inertia pinv a l o e c.
Proof. unfold oa_inertia. rewrite s_oai. reflexivity. Qed.
Lemma s_occb n Tp x y acc st : for_down n (occ_back_step b Tp x y acc) st = for_down n (occ_back_step a Tp x y acc) st.
Proof. apply for_down_ext. intros i [[[[Ia h] d] f] dd] Hi. unfold occ_back_step. rewrite s_abai'. destruct (aba_inertia a _ _ _ _) as [[Ia2 h2] d2]. rw. reflexivity. Qed.
Lemma s_occl Tp acc ra h d ddq l : occ_last b Tp acc ra h d ddq l = occ_last a Tp acc ra h d ddq l.
Proof. unfold occ_last. apply fold_left_ext. intros. cbn zeta. rw. reflexivity. Qed.
Lemma s_oacc l o e c : oa_cc pinv b l o e c = oa_cc pinv a l o e c.
Proof.
  assert (X : forall Tp x y st, for_up (ab_dof a) (occ_fwd_step b Tp x y) st = for_up (ab_dof a) (occ_fwd_step a Tp x y) st).
  { intros. apply for_up_ext. intros i [[[v acc] Ia] f] Hi. unfold occ_fwd_step. rw. rewrite HR. reflexivity. }
  unfold oa_cc. rewrite s_Tp. rw. rewrite X. destruct (for_up _ _ _) as [[[v acc] Ia] f]. rewrite s_occb. destruct (for_down _ _ _) as [[[[Ia2 h] d] f2] dd].
  rewrite s_Tw, s_oa, s_occl. reflexivity.
Qed.
Lemma s_oag l o fe e c : oa_gravity pinv b l o fe e c = oa_gravity pinv a l o fe e c.
Proof.
  assert (X : forall Tw x st, for_up (ab_dof a) (og_fwd_step b Tw x fe) st = for_up (ab_dof a) (og_fwd_step a Tw x fe) st).
  { intros. apply for_up_ext. intros i [Ia f] Hi. unfold og_fwd_step. rewrite HR, Hg. reflexivity. }
  unfold oa_gravity. rewrite s_Tw, s_Tp. rw. rewrite X. destruct (for_up _ _ _) as [Ia f]. rewrite s_occb. destruct (for_down _ _ _) as [[[[Ia2 h] d] f2] dd].
  rewrite s_oa, s_occl. reflexivity.
Qed.
Lemma bare_outcome q : sees_load q = false -> outcome (ask solve pinv q b) = outcome (ask solve pinv q a).
Proof.
  intros Q. destruct q; try discriminate Q; cbn [ask]; rewrite !outcome_wrap; apply bind_cong;
  apply out_cache; intros c; rw; (destruct (idx _ _); [|reflexivity]).
  - rewrite s_oai. reflexivity.
  - rewrite s_oa. reflexivity.
  - rewrite s_oacc. reflexivity.
  - rewrite s_oag. reflexivity.
Qed.
End Bare.
End Sim.

Lemma rb_absorb ab i : tree_ok ab -> rb_at (absorb ab) i = if (i <? ab_dof ab)%nat then heavier ab i else rb_default.
Proof.
  intros T. unfold rb_at, absorb, with_links. cbn [ab_rbs]. destruct (Nat.ltb_spec i (ab_dof ab)).
  - rewrite nth_indep with (d' := heavier ab 0) by (rewrite map_length, seq_length; auto).
    rewrite map_nth, seq_nth by auto. reflexivity.
  - apply nth_overflow. rewrite map_length, seq_length. auto.
Qed.
Lemma rb_over ab i : tree_ok ab -> (ab_dof ab <= i)%nat -> rb_at ab i = rb_default.
Proof. intros T H. apply nth_overflow. rewrite (tk_rbs _ T). auto. Qed.
Lemma absorb_fields ab i : tree_ok ab ->
  rb_parent (rb_at (absorb ab) i) = rb_parent (rb_at ab i) /\ rb_T (rb_at (absorb ab) i) = rb_T (rb_at ab i) /\
  rb_joint (rb_at (absorb ab) i) = rb_joint (rb_at ab i) /\ rb_id (rb_at (absorb ab) i) = rb_id (rb_at ab i) /\
  ((i < ab_dof ab)%nat -> inertia_at (absorb ab) i = inertia_at ab i).
Proof.
  intros T. unfold inertia_at. rewrite rb_absorb by auto. destruct (Nat.ltb_spec i (ab_dof ab)); [cbn; auto|].
  rewrite rb_over by auto. repeat split; auto. lia.
Qed.
Lemma absorb_par ab i : tree_ok ab -> par (absorb ab) i = par ab i.
Proof. intros T. unfold par. destruct (absorb_fields ab i T) as (-> & _). auto. Qed.

Lemma c29_equiv ab mem q : tree_ok ab -> sees_load q = true ->
  outcome (ask solve pinv q (cold ab mem)) = outcome (ask solve pinv q (cold (absorb ab) mem)).
Proof.
  intros T Q. apply sim_outcome; auto; try reflexivity; intros i;
  pose proof (absorb_fields ab i T) as (A & B & C & D & E).
  - symmetry. exact (absorb_par ab i T).
  - symmetry. exact B.
  - symmetry. exact C.
  - intros Hi. symmetry. exact (E Hi).
Qed.
Lemma c29_stray ab mem q l : (forall k, (k < ab_dof ab)%nat -> l (Z.of_nat k) = ab_loads ab (Z.of_nat k)) -> sees_load q = true ->
  outcome (ask solve pinv q (cold (with_links ab (ab_rbs ab) l) mem)) = outcome (ask solve pinv q (cold ab mem)).
Proof.
  intros H Q. apply sim_outcome; auto; try reflexivity. intros i Hi. unfold inertia_at. cbn [ab_loads cold set_cache with_links].
  rewrite H by auto. reflexivity.
Qed.
Lemma bare_load ab mem q l : sees_load q = false ->
  outcome (ask solve pinv q (cold (with_links ab (ab_rbs ab) l) mem)) = outcome (ask solve pinv q (cold ab mem)).
Proof. intros Q. apply bare_outcome; auto; reflexivity. Qed.

Lemma to_size_idx n z i : (Z.of_nat n <= 2 ^ 64)%Z -> idx n z = Some i -> to_size (norm_idx n z) = Z.of_nat i.
Proof.
  intros B H. unfold idx in H. destruct ((0 <=? norm_idx n z) && (norm_idx n z <? Z.of_nat n))%Z eqn:Q; [|discriminate].
  apply andb_true_iff in Q. destruct Q as [Q1 Q2]. inversion H; subst. unfold to_size. rewrite Z.mod_small; lia.
Qed.
Lemma c29_book h ab z i J : reached solve pinv h ab -> (Z.of_nat (ab_dof ab) <= 2 ^ 64)%Z -> idx (ab_dof ab) z = Some i ->
  (exists ab', add_load J z ab = Ret ab' tt /\ same_but_loads ab ab' /\
    ab_loads ab' (Z.of_nat i) = Some (match ab_loads ab (Z.of_nat i) with None => J | Some J0 => iadd J0 J end) /\
    forall k, k <> Z.of_nat i -> ab_loads ab' k = ab_loads ab k) /\
  (exists ab', replace_load J z ab = Ret ab' tt /\ same_but_loads ab ab' /\
    ab_loads ab' (Z.of_nat i) = Some J /\ forall k, k <> Z.of_nat i -> ab_loads ab' k = ab_loads ab k) /\
  (exists ab', clear_load z ab = Ret ab' tt /\ same_but_loads ab ab' /\
    ab_loads ab' (Z.of_nat i) = None /\ forall k, k <> Z.of_nat i -> ab_loads ab' k = ab_loads ab k).
Proof.
  intros R Hn Hz. destruct (tk_cache _ (tree_reached solve pinv h ab R)) as [c Hc].
  unfold add_load, replace_load, clear_load, set_loads. rewrite (to_size_idx _ _ _ Hn Hz), Hc.
  repeat split; eexists; (split; [reflexivity|]); (split; [repeat split|]); cbn [ab_loads]; unfold map_set;
    rewrite Z.eqb_refl; (split; [reflexivity|]); intros k Hk; destruct (Z.eqb_spec k (Z.of_nat i)); auto; contradiction.
Qed.
Lemma c29_absorbed h ab mem q : reached solve pinv h ab -> sees_load q = true ->
  outcome (ask solve pinv q (cold ab mem)) = outcome (ask solve pinv q (cold (absorb ab) mem)).
Proof. intros R. apply c29_equiv. exact (tree_reached solve pinv h ab R). Qed.
End Load.
