(** Every API call keeps the articulated-body cache coherent. *)
From Coq Require Import List Arith ZArith Bool Lia.
From Verif Require Import Scalar Base Spatial SpecGeo Joint Body Kin InvDyn FwdDyn Opspace OpspaceAba Deriv Sim Ops Specs SpecCache SpecKin SpecDyn SpecAba SpatialProofs TreeProofs CacheProofs CacheOps WorldProofs AbaProofs AinvProofs.
Import ListNotations.

Section AbaOps.
Context {S : Scal}.
Variable solve : list (list K) -> list K -> list K.
Variable pinv : list (list K) -> K -> list (list K) * bool.

(** ** Calls that leave the articulated-body cache alone *)
Lemma aba_Tp ab c : ca_aba (ensure_Tp ab c) = ca_aba c.
Proof. unfold ensure_Tp. destruct (is_Tp _); reflexivity. Qed.
Lemma aba_Tw ab c : ca_aba (ensure_Tw ab c) = ca_aba c.
Proof. unfold ensure_Tw. destruct (is_Tw _); [reflexivity|]. apply aba_Tp. Qed.
Lemma aba_if (b : bool) c c' : ca_aba c' = ca_aba c -> ca_aba (if b then c' else c) = ca_aba c.
Proof. destruct b; auto. Qed.
Lemma aba_jac ab l off c : ca_aba (ensure_jac ab l off c) = ca_aba c.
Proof. unfold ensure_jac. destruct (_ && _); [reflexivity|]. apply aba_Tw. Qed.
Lemma aba_cc ab c : ca_aba (ensure_cc ab c) = ca_aba c.
Proof.
  unfold ensure_cc. destruct (is_cc _); [reflexivity|]. destruct (for_up _ _ _) as [[v cc] f]. destruct (for_down _ _ _) as [C f']. cbn.
  apply aba_if, aba_Tp.
Qed.
Lemma aba_grav ab c : ca_aba (ensure_grav ab c) = ca_aba c.
Proof.
  unfold ensure_grav. destruct (is_grav _); [reflexivity|]. destruct (for_down _ _ _) as [C f']. cbn.
  destruct (has_child ab); rewrite ?aba_Tp; apply aba_if, aba_Tw.
Qed.
Lemma aba_ext ab fe c : ca_aba (fst (ext_torques ab fe c)) = ca_aba c.
Proof.
  unfold ext_torques. destruct (for_down _ _ _) as [t f]. cbn. destruct (has_ext ab fe); rewrite ?aba_Tw; apply aba_if, aba_Tp.
Qed.
Lemma aba_crba ab c : ca_aba (ensure_crba ab c) = ca_aba c.
Proof. unfold ensure_crba. destruct (is_crba _); [reflexivity|]. destruct (for_down _ _ _) as [t f]. cbn. apply aba_if, aba_Tp. Qed.
Lemma aba_crba_inv ab c : ca_aba (ensure_crba_inv ab c) = ca_aba c.
Proof. unfold ensure_crba_inv. destruct (is_crba_inv _); [reflexivity|]. apply aba_crba. Qed.
Lemma aba_id ab ddq fe o c : ca_aba (fst (inverse_dynamics ab ddq fe o c)) = ca_aba c.
Proof.
  unfold inverse_dynamics. destruct (_ && _).
  - pose proof (aba_ext ab fe c) as X. destruct (ext_torques ab fe c). exact X.
  - destruct (for_up _ _ _) as [[v a] f]. destruct (for_down _ _ _) as [t f']. cbn.
    destruct (has_child ab); rewrite ?aba_Tp; apply aba_if, aba_Tw.
Qed.
Lemma aba_fd ab tau fe o c : ca_aba (fst (forward_dynamics solve ab tau fe o c)) = ca_aba c.
Proof.
  unfold forward_dynamics. pose proof (aba_id ab (vec (ab_dof ab) (fun _ => k0)) fe (IdOpts (o_grav o) (o_cc o) false (klit 1 100)) c) as X.
  destruct (inverse_dynamics _ _ _ _ _). cbn in *. rewrite aba_crba_inv. exact X.
Qed.
Lemma aba_rnea ab ddq fe o c : ca_aba (id_rnea ab ddq fe o c) = ca_aba c.
Proof.
  unfold id_rnea. pose proof (aba_id ab ddq fe o (clear_crba c)) as X. destruct (inverse_dynamics _ _ _ _ _). exact X.
Qed.
Lemma aba_vd ab ddq fe o c : ca_aba (fst (velocity_derivative ab ddq fe o c)) = ca_aba c.
Proof.
  unfold velocity_derivative. destruct (negb _); [reflexivity|]. destruct (for_up _ _ _) as [[v a] f]. destruct (for_down _ _ _) as [t f'].
  cbn. destruct (has_child ab); rewrite ?aba_Tp; apply aba_rnea.
Qed.
Lemma aba_oinv ab J c : ca_aba (ops_inertia_inverse solve ab J c) = ca_aba c.
Proof. unfold ops_inertia_inverse. destruct (_ && _); [reflexivity|]. apply aba_crba_inv. Qed.
Lemma aba_oin ab J eps c : ca_aba (ops_inertia solve pinv ab J eps c) = ca_aba c.
Proof. unfold ops_inertia. destruct (_ && _); [reflexivity|]. destruct (pinv _ _). apply aba_oinv. Qed.
Lemma aba_ojbar ab J eps c : ca_aba (ops_jbar solve pinv ab J eps c) = ca_aba c.
Proof. unfold ops_jbar. destruct (_ && _); [reflexivity|]. apply aba_oin. Qed.
Lemma aba_occ ab J l eps c c' x : ops_cc solve pinv ab J l eps c = Ok (c', x) -> ca_aba c' = ca_aba c.
Proof.
  unfold ops_cc. destruct (negb _); [discriminate|]. destruct (idx _ _); [|discriminate]. intros H; inversion H.
  rewrite aba_Tw, aba_oin, aba_cc, aba_ojbar. auto.
Qed.
Lemma aba_ograv ab J eps c : ca_aba (fst (ops_gravity solve pinv ab J eps c)) = ca_aba c.
Proof. cbn. rewrite aba_grav, aba_ojbar. auto. Qed.
Lemma aba_oext ab J fe eps c : ca_aba (fst (ops_external solve pinv ab J fe eps c)) = ca_aba c.
Proof.
  unfold ops_external. pose proof (aba_ext ab fe (ops_jbar solve pinv ab J eps c)) as X. destruct (ext_torques _ _ _). cbn in *.
  rewrite X. apply aba_ojbar.
Qed.
Lemma aba_ofric ab J tau eps st c : ca_aba (fst (ops_friction solve pinv ab J tau eps st c)) = ca_aba c.
Proof. cbn. apply aba_ojbar. Qed.
Lemma aba_oid ab J ddx N fe e o c c' x : ops_inverse_dynamics solve pinv ab J ddx N fe e o c = Ok (c', x) -> ca_aba c' = ca_aba c.
Proof.
  unfold ops_inverse_dynamics. cbn zeta.
  set (Jx := match N with Some (_ :: _ as M) => _ | _ => J end). clearbody Jx.
  set (c1 := ops_inertia solve pinv ab Jx (p_svd o) c). assert (E1 : ca_aba c1 = ca_aba c) by apply aba_oin.
  set (F := clip_force _ _). clearbody F.
  assert (X2 : exists c2 F2, (if e then (c1, F) else let '(c, x) := ops_external solve pinv ab Jx fe (p_svd o) c1 in (c, vadd F x)) = (c2, F2) /\ ca_aba c2 = ca_aba c).
  { destruct e; [eauto|]. pose proof (aba_oext ab Jx fe (p_svd o) c1) as X. destruct (ops_external _ _ _ _ _ _ _). do 2 eexists. split; [reflexivity|]. cbn in X. congruence. }
  destruct X2 as (c2 & F2 & -> & E2).
  assert (X3 : exists c3 F3, (if p_grav o then let '(c, x) := ops_gravity solve pinv ab Jx (p_svd o) c2 in (c, vadd F2 x) else (c2, F2)) = (c3, F3) /\ ca_aba c3 = ca_aba c).
  { destruct (p_grav o); [|eauto]. pose proof (aba_ograv ab Jx (p_svd o) c2) as X. destruct (ops_gravity _ _ _ _ _ _). do 2 eexists. split; [reflexivity|]. cbn in X. congruence. }
  destruct X3 as (c3 & F3 & -> & E3).
  assert (X4 : forall c4 F4, (if p_cc o then bind (ops_cc solve pinv ab Jx (ktrunc (p_svd o)) k0 c3) (fun '(c, x) => Ok (c, vadd F3 x)) else Ok (c3, F3)) = Ok (c4, F4) -> ca_aba c4 = ca_aba c).
  { intros c4 F4. destruct (p_cc o); [|intros H; inversion H; subst; auto].
    destruct (ops_cc _ _ _ _ _ _ _) as [[c5 y]| |] eqn:Q; cbn; try discriminate. intros H; inversion H; subst.
    apply aba_occ in Q. congruence. }
  destruct (if p_cc o then _ else _) as [[c4 F4]| |]; cbn; try discriminate. specialize (X4 _ _ eq_refl).
  match goal with |- context [if p_fric o then ?x else ?y] => assert (X5 : exists c5 F5, (if p_fric o then x else y) = (c5, F5) /\ ca_aba c5 = ca_aba c) end.
  { destruct (p_fric o); [|eauto]. do 2 eexists. split; [reflexivity|]. rewrite aba_ojbar. exact X4. }
  destruct X5 as (c5 & F5 & -> & E5). destruct N as [M|]; intros H; inversion H; subst; rewrite ?aba_ojbar; auto.
Qed.

(** ** Coherence *)
Definition aba_ok (ab : body) (c : cache) : Prop := inva ab c /\ invi ab c.
Lemma aba_ok_same ab c c' : ca_aba c' = ca_aba c -> aba_ok ab c -> aba_ok ab c'.
Proof. unfold aba_ok, inva, invi. intros ->. auto. Qed.
Definition wfa (ab : body) : Prop := exists c, ab_cache ab = Some c /\ inv ab c /\ aba_ok ab c.
Lemma wfa_wfc ab : wfa ab -> wfc ab. Proof. intros (c & E & V & _). exists c. auto. Qed.

(** Values depend on the tree, the positions and the loads only. *)
Definition same_mass (a b : body) : Prop :=
  ab_dof a = ab_dof b /\ ab_rbs a = ab_rbs b /\ ab_q a = ab_q b /\ ab_loads a = ab_loads b /\ ab_anc a = ab_anc b.
Lemma aba_ok_mass a b c : same_mass a b -> aba_ok a c -> aba_ok b c.
Proof.
  destruct a, b. unfold same_mass. cbn. intros (-> & -> & -> & -> & ->) H. exact H.
Qed.
Lemma same_mass_cache ab x : same_mass ab (set_cache ab x). Proof. repeat split. Qed.

Definition noload (ab : body) : Prop := forall k, ab_loads ab k = None.
Lemma noload_at ab i : noload ab -> inertia_at ab i = rb_inertia (rb_at ab i).
Proof. intros H. unfold inertia_at. rewrite H. auto. Qed.

Section Opsp.
Variable ab : body.
Hypothesis T : tree_ok ab.
Hypothesis NL : noload ab.
Let n := ab_dof ab.
Lemma oa_fwd_Ia Tw abac l : forall m Ia p, 
  let '(Ia', p') := for_up m (oa_fwd_step ab Tw abac l) (Ia, p) in
  if abac then Ia' = Ia else forall i, i < m -> Ia' i = i6_of (inertia_at ab i).
Proof.
  intros m Ia p. pose proof (for_up_ind (fun m (s : arr i6 * arr2 force) => if abac then fst s = Ia else forall i, i < m -> fst s i = i6_of (inertia_at ab i)) m (oa_fwd_step ab Tw abac l) (Ia, p)) as X.
  destruct (for_up m _ _) as [Ia' p']. cbn [fst] in X. apply X.
  - destruct abac; auto. lia.
  - intros i [I1 p1] Hi Y. cbn [fst] in *. unfold oa_fwd_step. destruct abac; auto.
    intros j Hj. cbn [fst]. apply upd_lt with (b := fun i => i6_of (inertia_at ab i)); auto. rewrite noload_at; auto.
Qed.
Lemma art_start_or (abac : bool) (Ia Ia' : arr i6) h d : (if abac then Ia' = Ia else forall i, i < n -> Ia' i = i6_of (inertia_at ab i)) ->
  (abac = true -> art_all ab Ia h d) -> art_st ab abac n Ia' h d.
Proof. intros H1 H2. destruct abac; cbn; [subst; auto|]. apply art_start. auto. Qed.
Lemma oa_back_art Tp abac Ia h d pu : tp_ok ab Tp -> art_st ab abac n Ia h d ->
  let '(Ia', h', d', _) := for_down n (oa_back_step ab Tp abac) (Ia, h, d, pu) in art_all ab Ia' h' d'.
Proof.
  intros HT H0. pose proof (for_down_ind (fun m (s : arr i6 * arr force * arr K * (arr2 force * arr2 K)) => let '(Ia', h', d', _) := s in art_st ab abac m Ia' h' d') n
    (oa_back_step ab Tp abac) (Ia, h, d, pu)) as X.
  destruct (for_down n _ _) as [[[Ia' h'] d'] pu']. apply (art_st_end ab abac). apply X; auto.
  intros i [[[I1 h1] d1] [p u]] Hi Y. unfold oa_back_step.
  pose proof (art_st_step ab T abac Tp i I1 h1 d1 HT Hi Y) as Z. destruct (aba_inertia _ _ _ _ _) as [[I2 h2] d2]. apply Z.
Qed.
Lemma occ_back_art Tp abac acc a Ia h d f x : tp_ok ab Tp -> art_st ab abac n Ia h d ->
  let '(Ia', h', d', _, _) := for_down n (occ_back_step ab Tp abac acc a) (Ia, h, d, f, x) in art_all ab Ia' h' d'.
Proof.
  intros HT H0. pose proof (for_down_ind (fun m (s : arr i6 * arr force * arr K * arr force * arr K) => let '(Ia', h', d', _, _) := s in art_st ab abac m Ia' h' d') n
    (occ_back_step ab Tp abac acc a) (Ia, h, d, f, x)) as X.
  destruct (for_down n _ _) as [[[[Ia' h'] d'] f'] x']. apply (art_st_end ab abac). apply X; auto.
  intros i [[[[I1 h1] d1] f1] x1] Hi Y. unfold occ_back_step.
  pose proof (art_st_step ab T abac Tp i I1 h1 d1 HT Hi Y) as Z. destruct (aba_inertia _ _ _ _ _) as [[I2 h2] d2]. apply Z.
Qed.
Lemma tp_ok_Tp c : inv ab c -> tp_ok ab (c_Tp (ca_T (ensure_Tp ab c))).
Proof. intros H i p Hi _. apply ensure_Tp_at; auto. Qed.
Lemma aba_ok_put c Ia h d x : aba_ok ab c -> ca_aba x = AD true Ia h d (is_Ainv (ca_aba c)) (c_Ainv (ca_aba c)) (c_P (ca_aba c)) (c_AA (ca_aba c)) ->
  art_all ab Ia h d -> aba_ok ab x.
Proof. intros [H1 H2] E H. unfold aba_ok, inva, invi. rewrite E. cbn. split; auto. Qed.
Lemma oa_linv_ok l off c : inv ab c -> aba_ok ab c -> aba_ok ab (oa_inertia_inverse ab l off c).
Proof.
  intros V A. unfold oa_inertia_inverse. destruct (_ && _); auto. fold n.
  set (c1 := ensure_Tp ab (ensure_Tw ab c)). assert (V1 : inv ab (ensure_Tw ab c)) by (apply ensure_Tw_inv; auto).
  assert (E1 : ca_aba c1 = ca_aba c) by (unfold c1; rewrite aba_Tp, aba_Tw; auto).
  pose proof (oa_fwd_Ia (c_Tw (ca_T c1)) (is_aba (ca_aba c1)) l n (c_Ia (ca_aba c1)) (oa_p (ca_oa c))) as X.
  destruct (for_up n _ _) as [Ia p].
  assert (ST : art_st ab (is_aba (ca_aba c1)) n Ia (c_h (ca_aba c1)) (c_d (ca_aba c1))).
  { eapply art_start_or; [exact X|]. rewrite E1. apply A. }
  pose proof (oa_back_art (c_Tp (ca_T c1)) (is_aba (ca_aba c1)) Ia (c_h (ca_aba c1)) (c_d (ca_aba c1)) (p, oa_u (ca_oa c)) (tp_ok_Tp _ V1) ST) as Y.
  destruct (for_down n _ _) as [[[Ia' h] d] [p' u]].
  eapply (aba_ok_put c1); [|reflexivity|exact Y]. eapply aba_ok_same; eauto.
Qed.
Lemma oa_lam_ok l off eps c : inv ab c -> aba_ok ab c -> aba_ok ab (oa_inertia pinv ab l off eps c).
Proof.
  intros V A. unfold oa_inertia. destruct (_ && _); auto.
  eapply aba_ok_same; [|apply (oa_linv_ok l off c); auto]. reflexivity.
Qed.
Lemma occ_fwd_Ia Tp velc abac : forall m v a Ia f,
  let '(_, _, Ia', _) := for_up m (occ_fwd_step ab Tp velc abac) (v, a, Ia, f) in
  if abac then Ia' = Ia else forall i, i < m -> Ia' i = i6_of (inertia_at ab i).
Proof.
  intros m v a Ia f. pose proof (for_up_ind (fun m (s : arr motion * arr motion * arr i6 * arr force) => let '(_, _, Ia', _) := s in if abac then Ia' = Ia else forall i, i < m -> Ia' i = i6_of (inertia_at ab i)) m (occ_fwd_step ab Tp velc abac) (v, a, Ia, f)) as X.
  destruct (for_up m _ _) as [[[v' a'] Ia'] f']. apply X.
  - destruct abac; auto. lia.
  - intros i [[[v1 a1] I1] f1] Hi Y. unfold occ_fwd_step. destruct abac; auto.
    intros j Hj. apply upd_lt with (b := fun i => i6_of (inertia_at ab i)); auto. rewrite noload_at; auto.
Qed.
Lemma og_fwd_Ia Tw abac fe : forall m Ia f,
  let '(Ia', _) := for_up m (og_fwd_step ab Tw abac fe) (Ia, f) in
  if abac then Ia' = Ia else forall i, i < m -> Ia' i = i6_of (inertia_at ab i).
Proof.
  intros m Ia f. pose proof (for_up_ind (fun m (s : arr i6 * arr force) => let '(Ia', _) := s in if abac then Ia' = Ia else forall i, i < m -> Ia' i = i6_of (inertia_at ab i)) m (og_fwd_step ab Tw abac fe) (Ia, f)) as X.
  destruct (for_up m _ _) as [Ia' f']. apply X.
  - destruct abac; auto. lia.
  - intros i [I1 f1] Hi Y. unfold og_fwd_step. destruct abac; auto.
    intros j Hj. apply upd_lt with (b := fun i => i6_of (inertia_at ab i)); auto. rewrite noload_at; auto.
Qed.
Lemma oa_cc_ok (AC : forall x y : K, kadd x y = kadd y x) l off eps c : inv ab c -> aba_ok ab c -> aba_ok ab (fst (oa_cc pinv ab l off eps c)).
Proof.
  intros V A. unfold oa_cc. fold n. set (c1 := ensure_Tp ab c).
  assert (V1 : inv ab c1) by (apply ensure_Tp_inv; auto).
  assert (E1 : ca_aba c1 = ca_aba c) by apply aba_Tp.
  assert (HT : tp_ok ab (c_Tp (ca_T c1))) by (apply tp_ok_Tp; auto).
  pose proof (occ_fwd_vel ab T AC (c_Tp (ca_T c1)) (is_vel (ca_vel c1)) (is_aba (ca_aba c1)) (c_v (ca_vel c1)) (c_a (ca_rnea c1)) (c_Ia (ca_aba c1)) (c_f (ca_rnea c1)) HT (i_vel _ _ V1)) as XV.
  pose proof (occ_fwd_Ia (c_Tp (ca_T c1)) (is_vel (ca_vel c1)) (is_aba (ca_aba c1)) n (c_v (ca_vel c1)) (c_a (ca_rnea c1)) (c_Ia (ca_aba c1)) (c_f (ca_rnea c1))) as X.
  fold n in XV. destruct (for_up n _ _) as [[[v a] Ia] f].
  assert (ST : art_st ab (is_aba (ca_aba c1)) n Ia (c_h (ca_aba c1)) (c_d (ca_aba c1))).
  { eapply art_start_or; [exact X|]. rewrite E1. apply A. }
  pose proof (occ_back_art (c_Tp (ca_T c1)) (is_aba (ca_aba c1)) true a Ia (c_h (ca_aba c1)) (c_d (ca_aba c1)) f (fun _ => k0) HT ST) as Y.
  destruct (for_down n _ _) as [[[[Ia' h] d] f'] x]. cbn [fst].
  set (c2 := with_aba _ _).
  assert (A2 : aba_ok ab c2) by (eapply (aba_ok_put c1); [|reflexivity|exact Y]; eapply aba_ok_same; eauto).
  assert (V2 : inv ab c2) by (apply inv_aba, inv_rnea, inv_vel; auto).
  apply oa_lam_ok; [apply ensure_Tw_inv; auto|]. eapply aba_ok_same; [apply aba_Tw|auto].
Qed.
Lemma oa_gravity_ok l off fe eps c : inv ab c -> aba_ok ab c -> aba_ok ab (fst (oa_gravity pinv ab l off fe eps c)).
Proof.
  intros V A. unfold oa_gravity. fold n. set (c1 := ensure_Tp ab (ensure_Tw ab c)).
  assert (V0 : inv ab (ensure_Tw ab c)) by (apply ensure_Tw_inv; auto).
  assert (V1 : inv ab c1) by (apply ensure_Tp_inv; auto).
  assert (E1 : ca_aba c1 = ca_aba c) by (unfold c1; rewrite aba_Tp, aba_Tw; auto).
  assert (HT : tp_ok ab (c_Tp (ca_T c1))) by (apply tp_ok_Tp; auto).
  pose proof (og_fwd_Ia (c_Tw (ca_T c1)) (is_aba (ca_aba c1)) fe n (c_Ia (ca_aba c1)) (c_f (ca_rnea c1))) as X.
  destruct (for_up n _ _) as [Ia f].
  assert (ST : art_st ab (is_aba (ca_aba c1)) n Ia (c_h (ca_aba c1)) (c_d (ca_aba c1))).
  { eapply art_start_or; [exact X|]. rewrite E1. apply A. }
  pose proof (occ_back_art (c_Tp (ca_T c1)) (is_aba (ca_aba c1)) false (c_a (ca_rnea c1)) Ia (c_h (ca_aba c1)) (c_d (ca_aba c1)) f (fun _ => k0) HT ST) as Y.
  destruct (for_down n _ _) as [[[[Ia' h] d] f'] x]. cbn [fst].
  apply oa_lam_ok; [apply inv_aba, inv_rnea; auto|]. eapply (aba_ok_put c1); [|reflexivity|exact Y]; eapply aba_ok_same; eauto.
Qed.
End Opsp.

(** ** Calls *)
Lemma on_cache_aba {X} ab (f : cache -> res (cache * X)) ab' x :
  (forall c c' y, inv ab c -> aba_ok ab c -> f c = Ok (c', y) -> aba_ok ab c') -> wfc ab' -> wfa ab ->
  on_cache ab f = Ok (ab', x) -> wfa ab'.
Proof.
  intros H (c1 & E1 & V1) (c & E & V & A0). unfold on_cache. rewrite E. destruct (f c) as [[c' y]| |] eqn:F; cbn; try discriminate.
  intros X0; inversion X0; subst. cbn in E1. inversion E1; subst. exists c1. split; auto. split; auto.
  eapply aba_ok_mass; [apply same_mass_cache|]. eauto.
Qed.
Ltac okinv := let H := fresh in intros H; inversion H; subst; clear H.
Ltac same := eapply aba_ok_same; [|eassumption]; rewrite ?aba_Tp, ?aba_Tw, ?aba_jac, ?aba_cc, ?aba_grav, ?aba_crba, ?aba_crba_inv, ?aba_oinv, ?aba_oin, ?aba_ojbar; try reflexivity; auto.

Lemma ask_aba {AC : AddComm S} q ab ab' x : tree_ok ab -> wfa ab -> (opspace_aba (OAsk q) = true -> noload ab) ->
  ask solve pinv q ab = Ok (ab', x) -> wfa ab'.
Proof.
  intros T W NL E. pose proof (ask_inv solve pinv q ab ab' x T (wfa_wfc _ W) E) as WC.
  assert (OT : forall l a1 t, q_T_to_world l ab = Ok (a1, t) -> wfc a1 -> wfa a1).
  { intros l a1 t Q WC1. revert Q. apply on_cache_aba; auto. intros c c' z V A. destruct (idx _ _); [|discriminate]. okinv. same. }
  assert (OJ : forall l off a1 t, q_Jacobian l off ab = Ok (a1, t) -> wfc a1 -> wfa a1).
  { intros l off a1 t Q WC1. revert Q. apply on_cache_aba; auto. intros c c' z V A. destruct (idx _ _); [|discriminate]. okinv. same. }
  destruct q; cbn in E; apply wrap_inv in E; destruct E as (y & E & _).
  - revert E. apply on_cache_aba; auto. intros c c' z V A. destruct (idx _ _); [|discriminate]. okinv. same.
  - eapply OT; eauto.
  - unfold q_Position, bind in E. destruct (q_T_to_world l ab) as [[a1 t]| |] eqn:Q; try discriminate. inversion E; subst. eapply OT; eauto.
  - unfold q_Orientation, bind in E. destruct (q_T_to_world l ab) as [[a1 t]| |] eqn:Q; try discriminate. inversion E; subst. eapply OT; eauto.
  - unfold q_CartesianPose, bind in E. destruct (q_T_to_world l ab) as [[a1 t]| |] eqn:Q; try discriminate. inversion E; subst. eapply OT; eauto.
  - eapply OJ; eauto.
  - unfold q_LinearJacobian, bind in E. destruct (q_Jacobian l off ab) as [[a1 t]| |] eqn:Q; try discriminate. inversion E; subst. eapply OJ; eauto.
  - unfold q_AngularJacobian, bind in E. destruct (ab_cache ab) as [c0|]; [|discriminate].
    destruct (q_Jacobian l _ ab) as [[a1 t]| |] eqn:Q; try discriminate. inversion E; subst. eapply OJ; eauto.
  - revert E. apply on_cache_aba; auto. intros c c' z V A. destruct (idx _ _) eqn:Q; [|discriminate]. okinv. same.
  - revert E. apply on_cache_aba; auto. intros c c' z V A. okinv. same.
  - revert E. apply on_cache_aba; auto. intros c c' z V A. okinv. same.
  - revert E. apply on_cache_aba; auto. intros c c' z V A. pose proof (aba_ext ab fe c) as X.
    destruct (ext_torques ab fe c). okinv. cbn in X. same.
  - revert E. apply on_cache_aba; auto. intros c c' z V A. okinv. same.
  - revert E. apply on_cache_aba; auto. intros c c' z V A. destruct (idx _ _); [|discriminate]. okinv. same.
  - unfold q_InertiaInverse_solve in E. destruct (Nat.eqb _ _); [|discriminate].
    revert E. apply on_cache_aba; auto. intros c c' z V A. okinv. same.
  - unfold q_InverseDynamics in E. destruct (Nat.eqb _ _); [|discriminate].
    revert E. apply on_cache_aba; auto. intros c c' z V A. pose proof (aba_id ab ddq fe o c) as X.
    destruct (inverse_dynamics ab ddq fe o c). okinv. same.
  - unfold q_ForwardDynamics in E. destruct (Nat.eqb _ _); [|discriminate].
    revert E. apply on_cache_aba; auto. intros c c' z V A. pose proof (aba_fd ab tau fe o c) as X.
    destruct (forward_dynamics _ ab tau fe o c). okinv. same.
  - unfold q_ForwardDynamicsAba in E. destruct (Nat.eqb _ _); [|discriminate].
    revert E. apply on_cache_aba; auto. intros c c' z V [A1 A2]. pose proof (aba_value ab T tau fe o c V A1) as [X _].
    assert (Y : ca_aba (fst (forward_dynamics_aba ab tau fe o c)) = AD true (c_Ia (ca_aba (fst (forward_dynamics_aba ab tau fe o c))))
      (c_h (ca_aba (fst (forward_dynamics_aba ab tau fe o c)))) (c_d (ca_aba (fst (forward_dynamics_aba ab tau fe o c))))
      (is_Ainv (ca_aba c)) (c_Ainv (ca_aba c)) (c_P (ca_aba c)) (c_AA (ca_aba c))).
    { unfold forward_dynamics_aba. set (c1 := if has_ext ab fe then ensure_Tw ab c else c).
      set (c2 := if has_child ab || _ then ensure_Tp ab c1 else c1).
      assert (E2 : ca_aba c2 = ca_aba c) by (unfold c2, c1; destruct (_ || _); rewrite ?aba_Tp; apply aba_if, aba_Tw). clearbody c2.
      destruct (for_up _ _ _) as [[[v a] Ia] f]. destruct (for_down _ _ _) as [[[[Ia' h] d] f'] x']. destruct (for_up _ _ _) as [a'' x'']. cbn. rewrite E2. auto. }
    destruct (forward_dynamics_aba ab tau fe o c) as [c1 z1]. cbn [fst] in *. okinv. split; auto. unfold invi. rewrite Y. exact A2.
  - revert E. apply on_cache_aba; auto. intros c c' z V [A1 A2]. okinv. destruct (ensure_Ainv_value ab T c V A1) as (Y1 & Y2 & _). split; auto.
  - unfold q_VelocityDerivative in E.
    assert (X : forall c c' z, inv ab c -> aba_ok ab c -> (let '(c, t) := velocity_derivative ab ddq fe o c in Ok (c, mat (ab_dof ab) (ab_dof ab) t)) = Ok (c', z) -> aba_ok ab c').
    { intros c c' z V A. pose proof (aba_vd ab ddq fe o c) as X. destruct (velocity_derivative ab ddq fe o c). okinv. same. }
    destruct (o_cc o); [destruct (Nat.eqb _ _); [|discriminate]|]; revert E; apply on_cache_aba; auto.
  - unfold q_PositionDerivative in E. destruct (Nat.eqb _ _); [|discriminate].
    revert E. apply on_cache_aba; auto. intros c c' z V A. destruct (_ && _); [discriminate|]. okinv.
    eapply aba_ok_same; [|exact A]. cbn. destruct (_ || _); rewrite ?aba_Tw; apply aba_rnea.
  - unfold q_ops_InertiaInverse, with_J in E. destruct (shape _ _ _); [|discriminate].
    revert E. apply on_cache_aba; auto. intros c c' z V A. okinv. same.
  - unfold q_ops_Inertia, with_J in E. destruct (shape _ _ _); [|discriminate].
    revert E. apply on_cache_aba; auto. intros c c' z V A. okinv. same.
  - unfold q_ops_JacobianDynamicInverse, with_J in E. destruct (shape _ _ _); [|discriminate].
    revert E. apply on_cache_aba; auto. intros c c' z V A. okinv. same.
  - unfold q_ops_IsSingular, with_J in E. destruct (shape _ _ _); [|discriminate].
    revert E. apply on_cache_aba; auto. intros c c' z V A. okinv. same.
  - unfold q_ops_CentrifugalCoriolis, with_J in E. destruct (shape _ _ _); [|discriminate].
    revert E. apply on_cache_aba; auto. intros c c' z V A H. apply aba_occ in H. same.
  - unfold q_ops_Gravity, with_J in E. destruct (shape _ _ _); [|discriminate].
    revert E. apply on_cache_aba; auto. intros c c' z V A H. inversion H. same.
  - unfold q_ops_ExternalForces, with_J in E. destruct (shape _ _ _); [|discriminate].
    revert E. apply on_cache_aba; auto. intros c c' z V A H. pose proof (aba_oext ab J fe eps c) as X.
    destruct (ops_external _ _ _ _ _ _ _). inversion H; subst. same.
  - unfold q_ops_Friction, with_J in E. destruct (Nat.ltb _ _); [discriminate|]. destruct (shape _ _ _); [|discriminate].
    revert E. apply on_cache_aba; auto. intros c c' z V A H. inversion H. same.
  - assert (X : forall c c' z, inv ab c -> aba_ok ab c -> ops_inverse_dynamics solve pinv ab J ddx N fe fe_empty o c = Ok (c', z) -> aba_ok ab c')
      by (intros c c' z V A H; apply aba_oid in H; same).
    unfold q_ops_InverseDynamics, with_J in E. destruct (negb _); [discriminate|].
    destruct N as [[|]|]; [|destruct (shape (ab_dof ab) _ _); [|discriminate]|];
      (destruct (shape _ _ J); [|discriminate]); revert E; apply on_cache_aba; auto.
  - revert E. apply on_cache_aba; auto. intros c c' z V A. destruct (idx _ _); [|discriminate]. okinv. apply oa_linv_ok; auto.
  - revert E. apply on_cache_aba; auto. intros c c' z V A. destruct (idx _ _); [|discriminate]. okinv. apply oa_lam_ok; auto.
  - revert E. apply on_cache_aba; auto. intros c c' z V A. destruct (idx _ _) as [m|]; [|discriminate]. intros H.
    pose proof (oa_cc_ok ab T (NL eq_refl) kadd_comm m off eps c V A) as X. destruct (oa_cc _ _ _ _ _ _). inversion H; subst. exact X.
  - revert E. apply on_cache_aba; auto. intros c c' z V A. destruct (idx _ _) as [m|]; [|discriminate]. intros H.
    pose proof (oa_gravity_ok ab T (NL eq_refl) m off fe eps c V A) as X. destruct (oa_gravity _ _ _ _ _ _ _). inversion H; subst. exact X.
Qed.
End AbaOps.
