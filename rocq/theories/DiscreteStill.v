(** Robots in balance, and loads, under discrete dynamics (C49, C50). *)
From Coq Require Import List Arith ZArith Bool Lia Field.
From Verif Require Import Scalar Base Spatial SpecGeo SpatialTac SpatialProofs Joint Body Kin InvDyn FwdDyn Opspace OpspaceAba Deriv Sim Ops Discrete Specs SpecCache SpecKin SpecDyn SpecDiscrete TreeProofs CacheProofs CacheOps OpsCache KinProofs WorldProofs DynProofs DynApi AbaLaws BigSum VelProofs DiscreteCache DiscreteProofs DiscreteTravel DiscreteLaws DiscreteSlide DiscreteApi.
Import ListNotations.

Section Still.
Context {S : Scal} {L : ScalLaws S} {PL : PosLaws S} {ES : EqSound S}.
Add Field kf : (@kfield S L).
Variable solve : list (list K) -> list K -> list K.
Variable pinv : list (list K) -> K -> list (list K) * bool.
Variable log6 : iso -> motion.
Variable dlog6 : iso -> i6.
Variable norm : list K -> K.
Local Open Scope k_scope.
Local Notation dval := (dval log6 dlog6).
Local Notation DID := (q_DiscreteID log6 dlog6).
Local Notation DI := (q_DiscreteIntegrate solve log6 dlog6 norm).
Local Notation dreached := (dreached solve pinv log6 dlog6 norm).

Lemma velv_still ab k : tree_ok ab -> (forall j, (j < ab_dof ab)%nat -> coef (ab_dq ab) j = 0) -> (k < ab_dof ab)%nat -> velv ab k = mzero.
Proof.
  intros T Z. induction k as [k IH] using lt_wf_ind. intros Hk. unfold velv. rewrite tval_eq by auto. fold (velv ab).
  specialize (Z k Hk). unfold coef in Z. unfold qk. rewrite Z. destruct (par ab k) as [p|] eqn:P.
  - pose proof (par_lt ab T k p Hk P) as Hp. fold (velv ab p). rewrite (IH p Hp ltac:(lia)). generalize (sub_at ab k) (tpv ab k). vring.
  - generalize (sub_at ab k). vring.
Qed.
Lemma ccv_still ab k : tree_ok ab -> (forall j, (j < ab_dof ab)%nat -> coef (ab_dq ab) j = 0) -> (k < ab_dof ab)%nat -> ccv ab k = mzero.
Proof.
  intros T Z. induction k as [k IH] using lt_wf_ind. intros Hk. unfold ccv. rewrite tval_eq by auto. fold (ccv ab).
  pose proof (velv_still ab k T Z Hk) as V. specialize (Z k Hk). unfold coef in Z. unfold qk. rewrite Z, V. destruct (par ab k) as [p|] eqn:P; [|reflexivity].
  pose proof (par_lt ab T k p Hk P) as Hp. fold (ccv ab p). rewrite (IH p Hp ltac:(lia)). generalize (sub_at ab k) (tpv ab k). vring.
Qed.
Lemma Cv_still ab i : tree_ok ab -> rigid_robot ab -> (forall j, (j < ab_dof ab)%nat -> coef (ab_dq ab) j = 0) -> (i < ab_dof ab)%nat -> Cv ab i = 0.
Proof.
  intros T R Z Hi. unfold Cv. rewrite (back_world ab T R) by auto. apply ksum_zero. intros k Hk. destruct (ancb ab i k); auto.
  unfold ccf0. rewrite ccv_still, velv_still by auto.
  assert (E : fadd (imul (inertia_at ab k) mzero) (fcross mzero (imul (inertia_at ab k) mzero)) = fzero).
  { generalize (inertia_at ab k). vring. }
  rewrite E, fact_zero, mdot_zero_r. auto.
Qed.

Lemma set_q_ok ab x : tree_ok ab -> List.length x = ab_dof ab -> exists ab', set_q x ab = Ret ab' tt.
Proof.
  intros T Hx. unfold set_q. rewrite Hx, (tk_q _ T), Nat.eqb_refl. cbn [negb]. destruct (veqb _ _); eexists; reflexivity.
Qed.
Lemma repeat_vec n : repeat 0 n = vec n (fun _ : nat => 0).
Proof.
  unfold vec. assert (H : forall s, repeat 0 n = map (fun _ : nat => 0) (seq s n)).
  { induction n as [|n IH]; intros s; cbn; [auto|]. rewrite <- IH. auto. }
  apply H.
Qed.
Lemma still_ready ab tau dt fe (grav : bool) eps cap : tree_ok ab -> wfc ab -> ready log6 dlog6 dt (ab_q ab) ab -> proper ab ->
  solver_ok solve (ab_dof ab) (mat (ab_dof ab) (ab_dof ab) (Av ab)) -> injective (ab_dof ab) (mat (ab_dof ab) (ab_dof ab) (Av ab)) ->
  log6 iso_id = mzero -> (forall j, (j < ab_dof ab)%nat -> coef (ab_dq ab) j = 0) ->
  List.length tau = ab_dof ab -> (forall j, (j < ab_dof ab)%nat -> coef tau j = Extv ab fe j + (if grav then Gv ab j else 0)) ->
  (0 < cap)%nat -> klt (norm (repeat 0 (ab_dof ab))) eps = true ->
  exists ab', DI tau dt fe grav eps cap ab = Ok (ab', true) /\ ab_q ab' = ab_q ab /\
    (forall j, (j < ab_dof ab)%nat -> coef (ab_dq ab') j = 0).
Proof.
  intros T W RD P SO IJ EL Hdq Lt Ht Hc HN.
  destruct RD as (_ & c & Ec & V & D & Q).
  assert (Lq : List.length (ab_q ab) = ab_dof ab) by apply T. assert (Ld : List.length (ab_dq ab) = ab_dof ab) by apply T.
  unfold q_DiscreteIntegrate. rewrite Lt, Nat.eqb_refl, Ec.
  pose proof (forward_dynamics_inv solve ab T tau fe (fd_options grav) c V) as V1.
  pose proof (dr_fd solve ab tau fe (fd_options grav) c) as D1.
  pose proof (out_FD solve ab T W tau fe (fd_options grav) P) as FD. unfold q_ForwardDynamics in FD. rewrite Lt, Nat.eqb_refl, outcome_on_cache, Ec in FD.
  destruct (forward_dynamics solve ab tau fe (fd_options grav) c) as [c1 a]. cbn [bind] in FD. injection FD as FA.
  assert (RZ : vec (ab_dof ab) (fd_rhs ab tau fe (fd_options grav)) = vec (ab_dof ab) (fun _ : nat => 0)).
  { apply vec_ext. intros i Hi. unfold fd_rhs, fd_options. cbn [o_fric o_cc o_grav]. specialize (Ht i Hi).
    rewrite (Cv_still ab i T (pr_rigid _ P) Hdq Hi). unfold coef in Ht. unfold qk. rewrite Ht. destruct grav; ring. }
  assert (AZ : forall i, (i < ab_dof ab)%nat -> qk a i = 0).
  { rewrite FA, RZ. destruct (SO (vec (ab_dof ab) (fun _ : nat => 0)) (vec_length _ _)) as [S1 S2]. apply IJ; auto. intros i Hi. rewrite S2, coef_vec by auto. auto. }
  clear FA RZ SO IJ. cbn [fst] in V1, D1.
  match goal with |- context [Discrete.newton _ _ _ _ _ _ _ _ _ _ _ ?x c1] => replace x with (ab_q ab) end.
  2:{ eapply eq_trans; [apply (list_eq_vec (ab_q ab) (ab_dof ab) Lq)|]. apply vec_ext. intros i Hi. rewrite AZ by auto. specialize (Hdq i Hi). unfold coef in Hdq. unfold qk. rewrite Hdq. ring. }
  destruct cap as [|cap]; [lia|]. cbn [newton].
  rewrite <- D1 in D, Q.
  destruct (discrete_id_ok log6 dlog6 ab T (ab_q ab) dt fe grav c1 (apart dt) V1 D) as (V2 & A2 & X2). rewrite Q in A2, X2.
  destruct (discrete_id log6 dlog6 ab (ab_q ab) dt fe grav c1) as [c2 x]. cbn [fst snd] in V2, A2, X2.
  match goal with |- context [norm ?v] => replace v with (repeat 0 (ab_dof ab)) end.
  2:{ rewrite repeat_vec. apply vec_ext. intros i Hi. rewrite X2, (dval_rest log6 dlog6 ab dt fe grav i T (pr_rigid _ P) EL Hi) by auto. specialize (Ht i Hi). unfold coef in Ht. unfold qk. rewrite Ht. ring. }
  rewrite HN.
  assert (T2 : tree_ok (set_cache ab (Some c2))) by (apply tree_set_cache; auto).
  destruct (set_q_ok (set_cache ab (Some c2)) (ab_q ab) T2 Lq) as (ab3 & E3). rewrite E3. cbn [called]. unfold bind at 1.
  pose proof (tree_set_q _ _ _ T2 E3) as T3. destruct (set_q_val (ab_q ab) (set_cache ab (Some c2)) c2 ab3 eq_refl E3) as (c3 & Ec3 & Q3 & _).
  destruct (set_q_frame _ _ _ E3) as ((F1 & _) & _). cbn in F1.
  match goal with |- context [set_dq ?v ab3] => assert (LV : List.length v = ab_dof ab3) by (rewrite vec_length; auto); destruct (set_dq_ok ab3 v T3 LV) as (ab4 & E4) end.
  rewrite E4. cbn [called bind]. destruct (set_dq_val _ _ c3 ab4 Ec3 E4) as (c4 & Ec4 & Q4 & _). destruct (set_dq_frame _ _ _ E4) as (_ & F2 & _).
  rewrite Ec4. eexists. split; [reflexivity|]. cbn [ab_q ab_dq set_cache]. split; [congruence|].
  intros j Hj. rewrite Q4, coef_vec by auto. rewrite (as_q _ _ _ _ _ _ _ A2). rewrite (Fdiv_def kfield). ring.
Qed.
Lemma c49_still h ab A tau dt fe (grav : bool) eps cap G E : dreached h ab -> dbase_fixed false h = true -> no_integration h = true ->
  proper ab -> outcome (ask solve pinv QInertia ab) = Ok (AMat A) -> solver_ok solve (ab_dof ab) A -> injective (ab_dof ab) A ->
  log6 iso_id = mzero -> (forall j, (j < ab_dof ab)%nat -> coef (ab_dq ab) j = 0) ->
  outcome (ask solve pinv QGrav ab) = Ok (AVec G) -> outcome (ask solve pinv (QExt fe) ab) = Ok (AVec E) ->
  List.length tau = ab_dof ab -> (forall j, (j < ab_dof ab)%nat -> coef tau j = coef E j + (if grav then coef G j else 0)) ->
  (0 < cap)%nat -> klt (norm (repeat 0 (ab_dof ab))) eps = true ->
  exists ab', DI tau dt fe grav eps cap ab = Ok (ab', true) /\ ab_q ab' = ab_q ab /\
    (forall j, (j < ab_dof ab)%nat -> coef (ab_dq ab') j = 0).
Proof.
  intros Re Hb Hn P HA SO IJ EL Hdq HG HE Lt Ht Hc HN. destruct (dreached_ok solve pinv log6 dlog6 norm h ab Re Hb Hn) as [T W].
  pose proof (ready_start solve pinv log6 dlog6 norm h ab dt Re Hb Hn) as RD. rewrite past_rest in RD by auto.
  cbn [ask] in HG, HE, HA. rewrite outcome_wrap, (out_Grav ab T W) in HG. rewrite outcome_wrap, (out_Ext ab T W) in HE. rewrite outcome_wrap, (out_Inertia ab T W) in HA. cbn in HG, HE, HA.
  inversion HG; subst G. inversion HE; subst E. inversion HA; subst A. clear HG HE HA.
  apply still_ready; auto.
  intros j Hj. specialize (Ht j Hj). rewrite !coef_vec in Ht by auto. exact Ht.
Qed.
End Still.

(** ** C50: loads; asking with another step *)
Section Defects.
Context {S : Scal}.
Variable solve : list (list K) -> list K -> list K.
Variable pinv : list (list K) -> K -> list (list K) * bool.
Variable log6 : iso -> motion.
Variable dlog6 : iso -> i6.
Variable norm : list K -> K.
Local Notation DID := (q_DiscreteID log6 dlog6).
Local Notation dreached := (dreached solve pinv log6 dlog6 norm).

Lemma cold_mless ab mem : mless ab (ca_dr (all_clear mem)).
Proof. intros X; discriminate X. Qed.
Lemma did_cold ab mem qn dt fe grav : told_apart dt -> tree_ok ab ->
  outcome (DID qn dt fe grav (cold ab mem)) = if Nat.ltb (List.length qn) (ab_dof ab) then UB
    else Ok (vec (ab_dof ab) (dval log6 dlog6 ab (vec (ab_dof ab) (fun i => ksub (qk (ab_q ab) i) (kmul dt (qk (ab_dq ab) i)))) qn dt fe grav)).
Proof.
  intros HD T. rewrite (did_out log6 dlog6 qn dt fe grav (cold ab mem) (all_clear mem)); [|auto|apply cold_tree; auto|reflexivity|apply inv_all_clear|apply dri_clear].
  rewrite (mless_prevq (cold ab mem) dt) by (auto; apply cold_mless). reflexivity.
Qed.
Lemma c50_loads {AC : AddComm S} h ab mem qn dt fe loads : dreached h ab -> dbase_fixed false h = true -> no_integration h = true ->
  dts_ok h -> told_apart dt ->
  outcome (DID qn dt fe false ab) = outcome (DID qn dt fe false (cold (with_links ab (ab_rbs ab) loads) mem)).
Proof.
  intros R Hb Hn Hd Ht. destruct (dreached_inv solve pinv log6 dlog6 norm h ab R Hb Hn Hd) as (T & _).
  rewrite (c47_fresh solve pinv log6 dlog6 norm h ab mem) by auto. rewrite did_cold by auto. rewrite did_cold; auto.
  apply (tree_same ab); auto; cbn; apply T.
Qed.

Lemma forget ab c ab' v mem qn2 dt2 fe2 grav2 qn dt fe grav : told_apart dt2 -> told_apart dt -> keq dt2 dt = false ->
  tree_ok ab -> ab_cache ab = Some c -> inv ab c -> dri log6 dlog6 ab (ca_dr c) ->
  DID qn2 dt2 fe2 grav2 ab = Ok (ab', v) ->
  outcome (DID qn dt fe grav ab') = outcome (DID qn dt fe grav (cold ab mem)).
Proof.
  intros H2 H1 HN T Ec V D H. unfold q_DiscreteID in H. destruct (Nat.ltb _ _); [discriminate|]. unfold on_cache in H. rewrite Ec in H.
  destruct (discrete_id_ok log6 dlog6 ab T qn2 dt2 fe2 grav2 c H2 V D) as (V1 & A1 & _).
  destruct (discrete_id log6 dlog6 ab qn2 dt2 fe2 grav2 c) as [c1 x]. cbn [fst snd bind] in *. inversion H; subst; clear H.
  rewrite did_cold by auto. rewrite (did_out log6 dlog6 qn dt fe grav (set_cache ab (Some c1)) c1); auto.
  - unfold prevq. rewrite (as_dt _ _ _ _ _ _ _ A1), HN, andb_false_r. reflexivity.
  - apply tree_set_cache; auto.
  - eapply inv_same_state; [|exact V1]; apply same_set_cache.
  - change (dri log6 dlog6 ab (ca_dr c1)). eapply asked_dri. exact A1.
Qed.
End Defects.

Section Forget.
Context {S : Scal} {L : ScalLaws S} {ES : EqSound S}.
Variable solve : list (list K) -> list K -> list K.
Variable pinv : list (list K) -> K -> list (list K) * bool.
Variable log6 : iso -> motion.
Variable dlog6 : iso -> i6.
Variable norm : list K -> K.
Local Notation DID := (q_DiscreteID log6 dlog6).
Local Notation dreached := (dreached solve pinv log6 dlog6 norm).
Local Notation travel := (travel solve pinv log6 dlog6 norm).
Lemma last_cons {A} (l : list A) : forall a d, last (a :: l) d = last l a.
Proof. induction l as [|b l IH]; intros a d; [reflexivity|]. change (last (a :: b :: l) d) with (last (b :: l) d). rewrite !IH. reflexivity. Qed.
Lemma travel_ready dt : keq dt dt = true -> forall legs qp ab abs, ready log6 dlog6 dt qp ab -> travel dt legs ab = Some abs ->
  exists qp', ready log6 dlog6 dt qp' (last abs ab).
Proof.
  intros HR. induction legs as [|l legs IH]; intros qp ab abs R E; cbn [SpecDiscrete.travel] in E.
  - inversion E; subst. eauto.
  - destruct (run solve pinv _ ab) as [a1|] eqn:Er; [|discriminate].
    destruct (q_DiscreteIntegrate _ _ _ _ _ _ _ _ _ _ a1) as [[ab' []]| |] eqn:Ei; try discriminate.
    destruct (SpecDiscrete.travel _ _ _ _ _ _ legs ab') as [abs'|] eqn:Et; [|discriminate]. inversion E; subst abs; clear E.
    destruct (ready_asks solve pinv log6 dlog6 _ _ _ _ _ R Er) as [R1 _].
    destruct (dint_ok solve log6 dlog6 norm _ _ _ _ _ _ _ _ _ (apart dt) HR R1 Ei) as (R2 & _).
    destruct (IH _ _ _ R2 Et) as [qp' X]. exists qp'. rewrite last_cons. exact X.
Qed.
Lemma c50_forget h ab dt legs abs ab' v mem qn2 dt2 fe2 grav2 qn fe grav :
  dreached h ab -> dbase_fixed false h = true -> no_integration h = true -> keq dt dt = true -> keq dt2 dt = false ->
  travel dt legs ab = Some abs -> DID qn2 dt2 fe2 grav2 (last abs ab) = Ok (ab', v) ->
  outcome (DID qn dt fe grav ab') = outcome (DID qn dt fe grav (cold (last abs ab) mem)).
Proof.
  intros Re Hb Hn HR HN E H. destruct (travel_ready dt HR legs _ ab abs (ready_start solve pinv log6 dlog6 norm h ab dt Re Hb Hn) E) as (qp' & T & c & Ec & V & D & _).
  apply (forget log6 dlog6 (last abs ab) c ab' v mem qn2 dt2 fe2 grav2); auto; apply apart.
Qed.
End Forget.
