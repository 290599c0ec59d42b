(** Operational space: stale inverse, confused arguments, force clipping (C37-C39). *)
From Coq Require Import List Arith ZArith Bool Lia Reals Lra.
From Verif Require Import Scalar Base Spatial SpecGeo Joint Body Kin InvDyn FwdDyn Opspace OpspaceAba Deriv Sim Ops Instances Specs SpecCache SpecKin SpecDyn SpecOps SpatialProofs TreeProofs CacheProofs CacheOps BigSum DynProofs DynApi OpsCache OpsApi OpsAlg OpsTask.
Import ListNotations.

Section Syn.
Context {S : Scal}.
Local Open Scope k_scope.
Variable solve : list (list K) -> list K -> list K.
Variable pinv : list (list K) -> K -> list (list K) * bool.
Context {ES : EqSound S}.

(** The cached dynamically consistent inverse is that of the cached threshold. *)
Record syn (ab : body) (d : opspace_data) : Prop := {
  sy_opi : opi solve pinv None ab d;
  sy_jb : is_jbar d = true -> o_Jbar d = jbv solve pinv ab (o_J d) (o_eps d)
}.
Section Run.
Variable ab : body.
Hypothesis T : tree_ok ab.
Lemma syn_lam J e c : inv ab c -> syn ab (ca_op c) -> (is_jbar (ca_op c) = true -> o_eps (ca_op c) = e) ->
  let c' := ops_inertia solve pinv ab J e c in syn ab (ca_op c') /\ o_J (ca_op c') = J /\ o_eps (ca_op c') = e /\ o_Lambda (ca_op c') = lamv solve pinv ab J e.
Proof.
  intros V Y He. destruct (lam_ok solve pinv ab T None J e c V (sy_opi _ _ Y)) as (O & F & J1 & E1 & L1 & _).
  cbn zeta in *. split; [|auto]. constructor; [exact O|]. unfold ops_inertia in *. destruct (is_lambda (ca_op c) && _ && _); [apply Y|].
  unfold ops_inertia_inverse in *. destruct (is_lambda_inv (ca_op c) && leqb _ _) eqn:E.
  - destruct (pinv _ _). cbn in *. intros B. rewrite (sy_jb _ _ Y B), (He B). reflexivity.
  - cbn in *. destruct (pinv _ _). cbn. discriminate.
Qed.
Lemma syn_jb J e c : inv ab c -> syn ab (ca_op c) -> let c' := ops_jbar solve pinv ab J e c in
  syn ab (ca_op c') /\ o_Jbar (ca_op c') = jbv solve pinv ab J e /\ o_J (ca_op c') = J /\ o_eps (ca_op c') = e.
Proof.
  intros V Y. pose proof (jb_keep solve pinv ab T None J e c eq_refl V (sy_opi _ _ Y)) as K1.
  unfold ops_jbar in *. destruct (is_jbar (ca_op c) && _ && _) eqn:E.
  - apply andb_true_iff in E. destruct E as [E E3]. apply andb_true_iff in E. destruct E as [E1 E2]. apply leqb_sound in E2. apply keq_sound in E3.
    cbn zeta. split; [auto|]. rewrite (sy_jb _ _ Y E1), E2, E3. auto.
  - destruct (lam_ok solve pinv ab T None J e c V (sy_opi _ _ Y)) as (O1 & F1 & J1 & E1 & L1 & _). set (c1 := ops_inertia solve pinv ab J e c) in *. clearbody c1. cbn zeta in *. cbn in *.
    destruct (oi_lam _ _ _ _ _ O1 F1) as (X1 & X2 & X3). destruct (oi_inv _ _ _ _ _ O1 X1) as [Y1 Y2].
    assert (B : lmul (ab_dof ab) (List.length J) (List.length J) (o_AinvJt (ca_op c1)) (o_Lambda (ca_op c1)) = jbv solve pinv ab J e) by (rewrite Y1, L1, J1; reflexivity).
    split; [|auto]. constructor; [exact K1|]. cbn. intros _. rewrite B, J1, E1. reflexivity.
Qed.
Lemma syn_off d : is_lambda d = false -> is_lambda_inv d = false -> is_jbar d = false -> syn ab d.
Proof. intros. constructor; [apply opi_off; auto|]. intros. congruence. Qed.
Lemma syn_grav J e c : inv ab c -> syn ab (ca_op c) -> let '(c', x) := ops_gravity solve pinv ab J e c in
  inv ab c' /\ syn ab (ca_op c') /\ x = jbt solve pinv ab J e (vec (ab_dof ab) (Gv ab)).
Proof.
  intros V O. unfold ops_gravity.
  assert (V1 : inv ab (ops_jbar solve pinv ab J e c)) by (apply ops_jbar_inv; auto).
  destruct (ensure_grav_inv ab T _ V1) as [V2 F2]. pose proof (op_grav ab (ops_jbar solve pinv ab J e c)) as O2.
  split; [exact V2|]. split; [rewrite O2; apply syn_jb; auto|]. unfold jbar_t. rewrite O2. unfold jbt. f_equal; [f_equal|].
  - apply (syn_jb J e c V O).
  - apply vec_ext. intros j Hj. apply (i_grav _ _ V2 F2 j Hj).
Qed.
Lemma syn_ext J fe e c : inv ab c -> syn ab (ca_op c) -> let '(c', x) := ops_external solve pinv ab J fe e c in
  inv ab c' /\ syn ab (ca_op c') /\ x = jbt solve pinv ab J e (vec (ab_dof ab) (Extv ab fe)).
Proof.
  intros V O. unfold ops_external.
  assert (V1 : inv ab (ops_jbar solve pinv ab J e c)) by (apply ops_jbar_inv; auto).
  destruct (ext_torques_inv ab T fe _ V1) as (V2 & X2 & _). pose proof (op_ext ab fe (ops_jbar solve pinv ab J e c)) as O2.
  destruct (ext_torques ab fe _) as [c2 t2]. cbn [fst snd] in *.
  split; [exact V2|]. split; [rewrite O2; apply syn_jb; auto|]. unfold jbar_t. rewrite O2. unfold jbt. f_equal; [f_equal|].
  - apply (syn_jb J e c V O).
  - apply vec_ext. auto.
Qed.
Lemma syn_fric J tau e st c : inv ab c -> syn ab (ca_op c) -> let '(c', x) := ops_friction solve pinv ab J tau e st c in
  inv ab c' /\ syn ab (ca_op c') /\ x = jbt solve pinv ab J e (vec (ab_dof ab) (friction_arr ab (qk tau) (negb (keq st k0)) (klit 1 100))).
Proof.
  intros V O. unfold ops_friction. split; [apply ops_jbar_inv; auto|]. split; [apply syn_jb; auto|]. unfold jbar_t, jbt. f_equal. f_equal.
  apply (syn_jb J e c V O).
Qed.
Lemma syn_cc J l c : inv ab c -> syn ab (ca_op c) ->
  match ops_cc solve pinv ab J l k0 c with
  | Ok (c', x) => inv ab c' /\ syn ab (ca_op c') /\ (exists i, idx (ab_dof ab) l = Some i /\ x = occv solve pinv ab J i k0) /\ List.length J = 6%nat
  | Throw => List.length J <> 6%nat
  | UB => List.length J = 6%nat /\ idx (ab_dof ab) l = None
  end.
Proof.
  intros V O. unfold ops_cc. destruct (Nat.eqb_spec (List.length J) 6) as [E6|E6]; cbn [negb]; [|exact E6].
  destruct (idx (ab_dof ab) l) as [i|] eqn:Ei; [|auto]. cbn zeta.
  set (c1 := ops_jbar solve pinv ab J k0 c).
  assert (V1 : inv ab c1) by (apply ops_jbar_inv; auto).
  destruct (syn_jb J k0 c V O) as (O1 & B1 & J1 & E1). fold c1 in O1, B1, J1, E1. cbn zeta in *.
  destruct (ensure_cc_inv ab T c1 V1) as [V2 F2]. pose proof (op_cc ab c1) as O2. set (c2 := ensure_cc ab c1) in *.
  assert (O1' : syn ab (ca_op c2)) by (rewrite O2; auto). assert (V3 : inv ab (ops_inertia solve pinv ab J k0 c2)) by (apply ops_inertia_inv; auto).
  destruct (syn_lam J k0 c2 V2 O1' ltac:(intros _; rewrite O2; auto)) as (O3 & _ & _ & L3).
  assert (CC3 : ca_cc (ops_inertia solve pinv ab J k0 c2) = ca_cc c2).
  { unfold ops_inertia, ops_inertia_inverse, ensure_crba_inv, ensure_crba. destruct (_ && _ && _); [reflexivity|]. destruct (pinv _ _). cbn.
    destruct (_ && _); [reflexivity|]. cbn. destruct (is_crba_inv _); [reflexivity|]. destruct (is_crba _); [reflexivity|]. destruct (for_down _ _ _) as [? ?]. cbn.
    destruct (has_child ab); [|reflexivity]. destruct (sr_Tp ab c2) as [t ->]. reflexivity. }
  set (c3 := ops_inertia solve pinv ab J k0 c2) in *.
  split; [apply ensure_Tw_inv; auto|]. split; [rewrite op_Tw; auto|]. split; [|auto].
  exists i. split; auto. apply idx_spec in Ei. destruct Ei as [Ei _].
  apply vec_ext. intros k Hk. f_equal.
  - f_equal. unfold jbar_t. rewrite O2. unfold jbt. f_equal; [f_equal|].
    + exact B1.
    + apply vec_ext. intros j Hj. apply (i_cc _ _ V2 F2 j Hj).
  - f_equal. rewrite op_Tw, L3. f_equal. f_equal. f_equal.
    + f_equal. f_equal. apply (ensure_Tw_at ab T c3 i V3 Ei).
    + destruct (sr_Tw ab c3) as [t ->]. cbn. rewrite CC3. apply (i_cc _ _ V2 F2 i Ei).
Qed.
Lemma syn_id J ddx N fe b o c : inv ab c -> syn ab (ca_op c) -> is_jbar (ca_op c) = false ->
  outcome (bind (ops_inverse_dynamics solve pinv ab J ddx N fe b o c) (fun '(c, x) => Ok (set_cache ab (Some c), x))) = oid_val solve pinv ab J ddx N fe b o.
Proof.
  intros V O NJ. unfold ops_inverse_dynamics. cbn zeta. unfold oid_val. cbn zeta. fold (oid_J ab J N).
  pose proof (oid_J_length ab J N) as HL. set (Jx := oid_J ab J N) in *. rewrite <- HL.
  set (m := List.length Jx).
  pose proof (ops_inertia_inv solve pinv ab T Jx (p_svd o) c V) as V1. destruct (syn_lam Jx (p_svd o) c V O ltac:(congruence)) as (O1 & _ & _ & L1).
  set (c1 := ops_inertia solve pinv ab Jx (p_svd o) c) in *. clearbody c1. cbn zeta in *. rewrite L1.
  set (F := clip_force (p_facc o) _).
  match goal with |- context [if b then (c1, F) else ?y] => assert (X2 : exists c2, (if b then (c1, F) else y) = (c2, if b then F else vadd F (jbt solve pinv ab Jx (p_svd o) (vec (ab_dof ab) (Extv ab fe)))) /\ inv ab c2 /\ syn ab (ca_op c2)) end.
  { destruct b; [exists c1; auto|]. pose proof (syn_ext Jx fe (p_svd o) c1 V1 O1) as X. destruct (ops_external _ _ _ _ _ _ _) as [c2 x]. destruct X as (A1 & A2 & ->). eauto. }
  destruct X2 as (c2 & -> & V2 & O2). set (F2 := if b then F else _).
  match goal with |- context [if p_grav o then ?x else (c2, F2)] => assert (X3 : exists c3, (if p_grav o then x else (c2, F2)) = (c3, oid_F0 solve pinv ab Jx ddx fe b o) /\ inv ab c3 /\ syn ab (ca_op c3)) end.
  { unfold oid_F0. cbn zeta. fold m F F2. destruct (p_grav o); [|exists c2; auto].
    pose proof (syn_grav Jx (p_svd o) c2 V2 O2) as X. destruct (ops_gravity _ _ _ _ _ _) as [c3 x]. destruct X as (A1 & A2 & ->). eauto. }
  destruct X3 as (c3 & -> & V3 & O3). set (F3 := oid_F0 _ _ _ _ _ _ _ _).
  assert (X4 : match (if p_cc o then bind (ops_cc solve pinv ab Jx (ktrunc (p_svd o)) k0 c3) (fun '(c, x) => Ok (c, vadd F3 x)) else Ok (c3, F3)) with
     | Ok (c4, F4) => inv ab c4 /\ syn ab (ca_op c4) /\ (if p_cc o then if Nat.eqb m 6 then match idx (ab_dof ab) (ktrunc (p_svd o)) with
            | Some i => Ok (vadd F3 (occv solve pinv ab Jx i k0)) | None => UB end else Throw else Ok F3) = Ok F4
     | Throw => p_cc o = true /\ m <> 6%nat
     | UB => p_cc o = true /\ m = 6%nat /\ idx (ab_dof ab) (ktrunc (p_svd o)) = None end).
  { destruct (p_cc o); [|auto].
    pose proof (syn_cc Jx (ktrunc (p_svd o)) c3 V3 O3) as X. destruct (ops_cc _ _ _ _ _ _ _) as [[c4 x]| |]; cbn [bind]; auto.
    destruct X as (A1 & A2 & A3 & A4). split; auto. split; auto. fold m in A4. rewrite A4. cbn [Nat.eqb].
    destruct A3 as (i & Ai & Ax). rewrite Ai, Ax; auto. }
  destruct (if p_cc o then bind _ _ else _) as [[c4 F4]| |]; cbn [bind].
  2:{ destruct X4 as [-> X4]. apply Nat.eqb_neq in X4. rewrite X4. reflexivity. }
  2:{ destruct X4 as (-> & -> & ->). reflexivity. }
  destruct X4 as (V4 & O4 & E4). rewrite E4. cbn [bind].
  match goal with |- context [if p_fric o then ?x else (c4, F4)] => assert (X5 : exists c5, (if p_fric o then x else (c4, F4)) = (c5, oid_F1 solve pinv ab Jx o F4) /\ inv ab c5 /\ syn ab (ca_op c5)) end.
  { unfold oid_F1. destruct (p_fric o); [|exists c4; auto].
    pose proof (syn_fric Jx (lmulv (ab_dof ab) m (ltr m (ab_dof ab) Jx) F4) (p_svd o) (p_stic o) c4 V4 O4) as X.
    destruct (ops_friction _ _ _ _ _ _ _ _) as [c5 x]. destruct X as (A1 & A2 & ->). eauto. }
  destruct X5 as (c5 & -> & V5 & O5).
  destruct N as [M|]; cbn [outcome bind]; [|reflexivity]. do 2 f_equal.
  unfold oid_N. cbn zeta. destruct (syn_jb Jx (p_svd o) c5 V5 O5) as (_ & -> & _). destruct M; reflexivity.
Qed.
End Run.
Lemma cold_oID ab mem J ddx N fe b o : tree_ok ab -> outcome (q_ops_InverseDynamics solve pinv J ddx N fe b o (cold ab mem)) =
  if oid_pre ab J ddx N then oid_val solve pinv ab J ddx N fe b o else UB.
Proof.
  intros T.
  assert (X : outcome (with_J J (cold ab mem) (ops_inverse_dynamics solve pinv (cold ab mem) J ddx N fe b o)) = if sh ab J then oid_val solve pinv ab J ddx N fe b o else UB).
  { apply (out_with_J (cold ab mem) (cold_wfc ab mem)). intros c E V.
    apply (syn_id (cold ab mem) (cold_tree ab mem T) J ddx N fe b o c V); inversion E; subst; [apply syn_off; reflexivity|reflexivity]. }
  unfold q_ops_InverseDynamics, oid_pre. change (ab_dof (cold ab mem)) with (ab_dof ab). destruct (Nat.eqb _ _); cbn [negb andb]; [|reflexivity].
  destruct N as [[|r M]|]; cbn [andb]; auto. destruct (shape _ _ (r :: M)); auto.
Qed.
End Syn.

Section Stale.
Context {S : Scal}.
Local Open Scope k_scope.
Variable solve : list (list K) -> list K -> list K.
Variable pinv : list (list K) -> K -> list (list K) * bool.
Context {AC : AddComm S} {ES : EqSound S}.
Lemma q_ops_get {A} J ab (f : cache -> res (cache * A)) ab' x : with_J J ab f = Ok (ab', x) ->
  exists c c', ab_cache ab = Some c /\ f c = Ok (c', x) /\ ab' = set_cache ab (Some c') /\ shape (List.length J) (ab_dof ab) J = true.
Proof.
  unfold with_J. destruct (shape _ _ _) eqn:E; [|discriminate]. unfold on_cache. destruct (ab_cache ab) as [c|]; [|discriminate].
  destruct (f c) as [[c' y]| |] eqn:F; try discriminate. cbn. intros H. inversion H; subst. eauto 8.
Qed.
Lemma c37_stale h ab J e1 e2 ab1 ab2 M x : reached solve pinv h ab -> base_fixed false h = true ->
  (forall a : K, keq a a = true) ->
  ask solve pinv (QoJbar J e1) ab = Ok (ab1, AMat M) -> ask solve pinv (QoLambda J e2) ab1 = Ok (ab2, x) ->
  outcome (ask solve pinv (QoJbar J e2) ab2) = Ok (AMat M).
Proof.
  intros R B KR E1 E2. destruct (reached_wfc solve pinv h ab R B) as [T W].
  assert (LR : leqb J J = true).
  { assert (VR : forall v : list K, veqb v v = true) by (unfold veqb; intros; induction v; cbn; rewrite ?KR; auto).
    clear E1 E2. induction J; cbn; rewrite ?VR; auto. }
  pose proof (reached_wop solve pinv None h ab R B (oone_none h)) as O.
  pose proof E1 as E1'. apply wrap_inv in E1'. destruct E1' as (y & E1' & Ey). inversion Ey; subst y; clear Ey.
  apply q_ops_get in E1'. destruct E1' as (c & c1 & Ec & F1 & Eab1 & SH). inversion F1; subst; clear F1.
  apply wrap_inv in E2. destruct E2 as (y & E2 & _). apply q_ops_get in E2. destruct E2 as (c1' & c2 & Ec1 & F2 & Eab2 & _).
  cbn in Ec1. inversion Ec1; subst c1'; clear Ec1. inversion F2; subst; clear F2.
  cbn [ask]. rewrite outcome_wrap. unfold q_ops_JacobianDynamicInverse, with_J.
  cbn [set_cache ab_dof]. rewrite SH. unfold on_cache. cbn [set_cache ab_cache bind outcome].
  match goal with |- context [ops_jbar solve pinv ?a J e2 ?c] => set (abx := a) end. cbn. f_equal. f_equal.
  destruct W as (c' & Ec' & V). replace c' with c in V by congruence. pose proof (get_opi solve pinv ab _ _ O Ec) as Oc.
  pose proof (jb_keep solve pinv ab T None J e1 c eq_refl V Oc) as K1.
  assert (B1 : is_jbar (ca_op (ops_jbar solve pinv ab J e1 c)) = true /\ o_J (ca_op (ops_jbar solve pinv ab J e1 c)) = J).
  { unfold ops_jbar. destruct (is_jbar (ca_op c) && _ && _) eqn:E.
    - apply andb_true_iff in E. destruct E as [E E3]. apply andb_true_iff in E. destruct E as [X1 X2]. apply leqb_sound in X2. auto.
    - cbn. split; [auto|]. apply (lam_ok solve pinv ab T None J e1 c V Oc). }
  destruct B1 as [B1 J1]. destruct (oi_jbar _ _ _ _ _ K1 B1) as [L1 _]. set (c1 := ops_jbar solve pinv ab J e1 c) in *.
  (* Inertia at e2 keeps the flag and the matrix *)
  assert (B2 : let c2 := ops_inertia solve pinv (set_cache ab (Some c1)) J e2 c1 in
             is_jbar (ca_op c2) = true /\ o_J (ca_op c2) = J /\ keq (o_eps (ca_op c2)) e2 = true /\ o_Jbar (ca_op c2) = o_Jbar (ca_op c1)).
  { cbn zeta. unfold ops_inertia. destruct (is_lambda (ca_op c1) && _ && _) eqn:E.
    - apply andb_true_iff in E. destruct E as [E E3]. auto.
    - unfold ops_inertia_inverse. rewrite L1, J1, LR. cbn [andb]. destruct (pinv _ _). cbn. auto. }
  cbn zeta in B2. destruct B2 as (B2 & J2 & K2 & E2). set (c2 := ops_inertia solve pinv (set_cache ab (Some c1)) J e2 c1) in *.
  unfold ops_jbar at 1. rewrite B2, J2, LR, K2. cbn [andb]. exact E2.
Qed.

(** ** C38 *)
End Stale.
Section Cor.
Context {S : Scal} {L : ScalLaws S} {ES : EqSound S}.
Add Field kf3 : (@kfield S L).
Local Open Scope k_scope.
Variable solve : list (list K) -> list K -> list K.
Variable pinv : list (list K) -> K -> list (list K) * bool.
Lemma oid_F0_length ab J ddx fe b o : List.length (oid_F0 solve pinv ab J ddx fe b o) = List.length J.
Proof.
  assert (C : forall F, List.length (clip_force (p_facc o) F) = List.length F) by (intros; unfold clip_force; destruct (klt _ _); auto; destruct (klt _ _); auto; apply map_length).
  unfold oid_F0. cbn zeta. destruct b, (p_grav o); rewrite ?(vadd_length (List.length J)); auto; try apply (vadd_length (List.length J)); try apply jbt_length; rewrite ?C; try apply lmulv_length.
Qed.
Lemma c38_cor h ab mem J ddx N fe b o N' tau0 : reached solve pinv h ab -> (N = None \/ N = Some nil) -> p_cc o = true -> p_fric o = false ->
  outcome (ask solve pinv (QoID J ddx N fe b (no_cc o)) (cold ab mem)) = Ok (ANull N' tau0) ->
  let answer := outcome (ask solve pinv (QoID J ddx N fe b o) (cold ab mem)) in
  (List.length J <> 6%nat -> answer = Throw) /\
  (List.length J = 6%nat -> match outcome (ask solve pinv (QoCC J (ktrunc (p_svd o)) 0) (cold ab mem)) with
     | Ok (AVec cc) => answer = Ok (ANull N' (map (fun k => coef tau0 k + total (map (fun i => entry J i k * coef cc i) (seq 0 6))) (seq 0 (ab_dof ab))))
     | _ => answer = UB
     end).
Proof.
  intros R HN Hc Hf H0 answer. pose proof (tree_reached _ _ _ _ R) as T. assert (AC : AddComm S) by apply laws_comm.
  assert (EJ : oid_J ab J N = J) by (destruct HN as [-> | ->]; reflexivity).
  assert (EN : oid_N solve pinv ab J N (no_cc o) = oid_N solve pinv ab J N o) by (destruct N; reflexivity).
  assert (EF : oid_F0 solve pinv ab J ddx fe b (no_cc o) = oid_F0 solve pinv ab J ddx fe b o) by reflexivity.
  subst answer. cbn [ask] in *. rewrite outcome_wrap in *. rewrite (cold_oID solve pinv ab mem) in * by auto.
  destruct (oid_pre ab J ddx N) eqn:EP; [|discriminate H0]. unfold oid_val in *. rewrite EJ, Hc in *. cbn [no_cc p_cc] in H0. rewrite EN, EF in H0. cbn [bind] in H0.
  unfold oid_F1 in *. cbn [no_cc p_fric] in H0. rewrite Hf in *. inversion H0; subst; clear H0.
  split; intros H6; [apply Nat.eqb_neq in H6; rewrite H6; reflexivity|].
  assert (SH : sh ab J = true) by (unfold oid_pre in EP; apply andb_true_iff in EP; apply EP).
  rewrite outcome_wrap. rewrite (out_oCC solve pinv (cold ab mem) (cold_tree ab mem T) (cold_wfc ab mem) 0 (cold_wop solve pinv ab mem (Some 0))).
  change (sh (cold ab mem) J) with (sh ab J). change (ab_dof (cold ab mem)) with (ab_dof ab). rewrite SH, H6, Nat.eqb_refl.
  destruct (idx (ab_dof ab) (ktrunc (p_svd o))) as [l|]; [|reflexivity]. cbn [bind]. do 2 f_equal.
  apply vec_ext. intros k Hk. change (occv solve pinv (cold ab mem) J l 0) with (occv solve pinv ab J l 0).
  change (coef (lmulv (ab_dof ab) 6 (ltr 6 (ab_dof ab) J) (oid_F0 solve pinv ab J ddx fe b o)) k) with (qk (lmulv (ab_dof ab) 6 (ltr 6 (ab_dof ab) J) (oid_F0 solve pinv ab J ddx fe b o)) k).
  rewrite lmulv_coef by auto. rewrite total_ksum, <- ksum_add. apply ksum_ext. intros i Hi.
  rewrite (coef_vadd 6) by (auto; rewrite oid_F0_length; auto). unfold ltr. rewrite ent_mat by auto. unfold coef, entry, qk, ent. ring.
Qed.
End Cor.
Section Fric.
Context {S : Scal} {L : ScalLaws S} {ES : EqSound S}.
Local Open Scope k_scope.
Variable solve : list (list K) -> list K -> list K.
Variable pinv : list (list K) -> K -> list (list K) * bool.
(** Friction in task space, for a nonzero stiction threshold, whatever it is. *)
Lemma c38_fric h ab J m tau e st : reached solve pinv h ab -> base_fixed false h = true -> one_threshold e h -> sized m (ab_dof ab) J ->
  (ab_dof ab <= List.length tau)%nat -> exists Jb F f,
    outcome (ask solve pinv (QoJbar J e) ab) = Ok (AMat Jb) /\
    Friction ab tau (negb (keq st 0)) (klit 1 100) = Ok F /\
    outcome (ask solve pinv (QoFric J tau e st) ab) = Ok (AVec f) /\
    List.length f = m /\ forall i, (i < m)%nat -> coef f i = total (map (fun k => entry Jb k i * coef F k) (seq 0 (ab_dof ab))).
Proof.
  intros R B OT HJ Ht. assert (AC : AddComm S) by apply laws_comm. destruct (reached_wfc solve pinv h ab R B) as [T W].
  pose proof (reached_wop solve pinv (Some e) h ab R B (oone_some e h OT)) as O.
  assert (SH : sh ab J = true) by (apply (sized_shape m); auto). assert (LJ : List.length J = m) by apply HJ.
  assert (Hl : Nat.ltb (List.length tau) (ab_dof ab) = false) by (apply Nat.ltb_ge; auto).
  do 3 eexists. cbn [ask]. rewrite !outcome_wrap, (out_oJb solve pinv ab T W e O), (out_oFric solve pinv ab T W e O), SH, Hl.
  unfold Friction. rewrite Hl. repeat (split; [reflexivity|]). rewrite jbt_length. split; [auto|].
  intros i Hi. unfold jbt. rewrite LJ. match goal with |- coef ?v i = _ => change (coef v i) with (qk v i) end. rewrite lmulv_coef by auto. rewrite total_ksum. apply ksum_ext. intros k Hk. unfold ltr. rewrite ent_mat by auto. reflexivity.
Qed.
End Fric.

(** ** C39 *)
Local Open Scope R_scope.
Lemma sqsum_cons a x : sqsum (a :: x) = a * a + sqsum x.
Proof. reflexivity. Qed.
Lemma fold_sq (x : list R) : forall a, fold_left (fun s y => s + y * y) x a = a + sqsum x.
Proof. induction x as [|y x IH]; intros a; [cbn; ring|]. rewrite sqsum_cons. cbn [fold_left]. rewrite IH. ring. Qed.
Lemma sqsum_pos x : 0 <= sqsum x.
Proof. induction x; [cbn; lra|]. rewrite sqsum_cons. nra. Qed.
Lemma sqsum_scale c x : sqsum (map (fun y => c * y) x) = c * c * sqsum x.
Proof. induction x; [cbn; ring|]. cbn [map]. rewrite !sqsum_cons, IHx. ring. Qed.
Lemma lnorm_sq (x : list R) : @lnorm RScal x = sqrt (sqsum x).
Proof. change (@lnorm RScal x) with (sqrt (fold_left (fun s y => s + y * y) x 0)). rewrite fold_sq, Rplus_0_l. reflexivity. Qed.
Lemma clip_spec fmax (F : list R) : 0 < fmax -> exists c, @clip_force RScal fmax F = map (fun y => c * y) F /\ 0 < c <= 1 /\
  sqsum (@clip_force RScal fmax F) <= fmax * fmax /\
  (sqsum F <= fmax * fmax -> @clip_force RScal fmax F = F) /\ (fmax * fmax < sqsum F -> sqsum (@clip_force RScal fmax F) = fmax * fmax).
Proof.
  intros Hf. unfold clip_force. change (klt (k0 : @K RScal) fmax) with (Rltb 0 fmax). assert (X : Rltb 0 fmax = true) by (apply Rltb_lt; auto). rewrite X.
  rewrite lnorm_sq. change (@klt RScal) with Rltb. pose proof (sqsum_pos F) as P. destruct (Rltb fmax (sqrt (sqsum F))) eqn:E.
  - apply Rltb_lt in E. set (s := sqrt (sqsum F)) in *. assert (SS : s * s = sqsum F) by (apply sqrt_sqrt; auto).
    assert (M : map (fun x => (fmax * (x / s))%R) F = map (fun y => fmax / s * y) F) by (apply map_ext; intros; field; lra).
    exists (fmax / s). change (map (fun x : K => @kmul RScal fmax (@kdiv RScal x s)) F) with (map (fun x => (fmax * (x / s))%R) F). rewrite M. split; [auto|].
    assert (Q : fmax / s * (fmax / s) * sqsum F = fmax * fmax) by (rewrite <- SS; field; lra).
    split. { split; [apply Rdiv_lt_0_compat; lra|]. apply Rmult_le_reg_r with s; [lra|]. unfold Rdiv. rewrite Rmult_assoc, Rinv_l by lra. lra. }
    rewrite sqsum_scale, Q. split; [lra|]. split; [|lra]. intros H. exfalso. rewrite <- SS in H. nra.
  - apply Rltb_ge in E. exists 1. split; [|split; [lra|]].
    + rewrite map_ext with (g := fun y => y) by (intros; ring). symmetry. apply map_id.
    + assert (Q : sqsum F <= fmax * fmax).
      { rewrite <- (sqrt_sqrt (sqsum F)) by auto. pose proof (sqrt_pos (sqsum F)). nra. }
      split; [auto|]. split; [auto|]. intros. lra.
Qed.
Lemma trunc_small e : -1 < e < 1 -> @ktrunc RScal e = 0%Z.
Proof.
  intros H. change (Rtrunc e = 0%Z). unfold Rtrunc. assert (I : forall x, 0 <= x < 1 -> Int_part x = 0%Z).
  { intros x Hx. unfold Int_part. assert (E : up x = 1%Z); [|rewrite E; reflexivity]. symmetry. apply tech_up; cbn; lra. }
  destruct (Rlt_dec e 0); [rewrite I by lra; reflexivity|apply I; lra].
Qed.
Section ClipApi.
Local Existing Instance RScal.
Variable solve : list (list (@K RScal)) -> list (@K RScal) -> list (@K RScal).
Variable pinv : list (list (@K RScal)) -> @K RScal -> list (list (@K RScal)) * bool.
Lemma coef_scale c (F : list R) : forall i, (i < List.length F)%nat -> @coef RScal (map (fun y => c * y) F) i = c * @coef RScal F i.
Proof. induction F as [|y F IH]; intros i Hi; [cbn in Hi; lia|]. destruct i; [reflexivity|]. apply (IH i). cbn in Hi. lia. Qed.
Lemma clip_zero fmax m (F : list R) : List.length F = m -> (forall i, (i < m)%nat -> @coef RScal F i = 0) -> forall i, (i < m)%nat -> @coef RScal (@clip_force RScal fmax F) i = 0.
Proof.
  intros HL H i Hi. destruct (Rlt_dec 0 fmax) as [P|P].
  - destruct (clip_spec fmax F P) as (c & E & _). rewrite E, coef_scale by lia. rewrite (H i Hi). apply Rmult_0_r.
  - unfold clip_force. change (@klt RScal) with Rltb. assert (X : Rltb k0 fmax = false) by (apply Rltb_ge; apply Rnot_lt_le; exact P). rewrite X. auto.
Qed.
Lemma c39 h (ab : @body RScal) J m ddx N fe b o : @reached RScal solve pinv h ab -> base_fixed false h = true -> @one_threshold RScal (p_svd o) h ->
  @sized RScal m (ab_dof ab) J -> List.length ddx = m -> (N = None \/ N = Some nil) -> p_cc o = false -> p_fric o = false -> 0 < p_facc o ->
  exists La tau tau0 N' N0 F,
    outcome (@ask RScal solve pinv (QoLambda J (p_svd o)) ab) = Ok (AMat La) /\
    outcome (@ask RScal solve pinv (QoID J ddx N fe b o) ab) = Ok (ANull N' tau) /\
    outcome (@ask RScal solve pinv (@QoID RScal J (repeat 0 m) N fe b o) ab) = Ok (ANull N0 tau0) /\
    List.length F = m /\ sqsum F <= p_facc o * p_facc o /\
    (forall k, (k < ab_dof ab)%nat -> @coef RScal tau k = @coef RScal tau0 k + @total RScal (map (fun i => @entry RScal J i k * @coef RScal F i) (seq 0 m))) /\
    (exists c, 0 < c <= 1 /\ forall i, (i < m)%nat -> @coef RScal F i = c * @row_times RScal m La ddx i) /\
    (sqsum (map (@row_times RScal m La ddx) (seq 0 m)) <= p_facc o * p_facc o -> forall i, (i < m)%nat -> @coef RScal F i = @row_times RScal m La ddx i) /\
    (p_facc o * p_facc o < sqsum (map (@row_times RScal m La ddx) (seq 0 m)) -> sqsum F = p_facc o * p_facc o).
Proof.
  intros R0 B OT HJ Hd HN Hc Hf Hp.
  assert (AC : AddComm RScal) by apply laws_comm. destruct (reached_wfc solve pinv h ab R0 B) as [T W].
  pose proof (reached_wop solve pinv (Some (p_svd o)) h ab R0 B (oone_some (p_svd o) h OT)) as O.
  pose proof (reached_wop solve pinv None h ab R0 B (oone_none h)) as O0.
  assert (SH : sh ab J = true) by (apply (sized_shape m); auto). assert (LJ : List.length J = m) by apply HJ.
  assert (PRE : forall x, List.length x = m -> oid_pre ab J x N = true).
  { intros x Hx. unfold oid_pre. rewrite Hx, LJ, Nat.eqb_refl, SH. destruct HN as [-> | ->]; reflexivity. }
  assert (EJ : oid_J ab J N = J) by (destruct HN as [-> | ->]; reflexivity).
  set (La := lamv solve pinv ab J (p_svd o)). set (F0 := @lmulv RScal m m La ddx).
  assert (EF0 : F0 = map (@row_times RScal m La ddx) (seq 0 m)).
  { unfold F0, lmulv, vec. apply map_ext. intros i. unfold row_times. rewrite total_ksum. reflexivity. }
  destruct (clip_spec (p_facc o) F0 Hp) as (c & E1 & E2 & E3 & E4 & E5). set (F := @clip_force RScal (p_facc o) F0) in *.
  assert (LF0 : List.length F0 = m) by apply lmulv_length. assert (LF : List.length F = m) by (rewrite E1, map_length; auto).
  do 5 eexists. exists F. cbn [ask]. rewrite !outcome_wrap, (out_oLam solve pinv ab T W O0), SH.
  rewrite !(out_oID solve pinv ab T W (p_svd o) O) by (auto; congruence). rewrite (PRE ddx Hd), (PRE (repeat 0 m)) by apply repeat_length.
  split; [reflexivity|]. fold La. unfold oid_val. rewrite EJ, Hc. cbn [bind]. unfold oid_F1. rewrite Hf, LJ.
  split; [reflexivity|]. split; [reflexivity|]. split; [auto|]. split; [auto|]. split; [|split; [|split]].
  - intros k Hk. match goal with |- @coef RScal ?v k = @coef RScal ?w k + _ => change (@coef RScal v k) with (@qk RScal v k); change (@coef RScal w k) with (@qk RScal w k) end.
    rewrite !lmulv_coef by auto.
    match goal with |- _ = _ + ?t => replace t with (@ksum RScal m (fun i => @kmul RScal (@entry RScal J i k) (@coef RScal F i))) by (symmetry; apply (@total_ksum RScal RLaws)) end.
    change Rplus with (@kadd RScal). rewrite <- (@ksum_add RScal RLaws). apply ksum_ext. intros i Hi.
    unfold ltr. rewrite ent_mat by auto.
    assert (Z : forall i, (i < m)%nat -> @coef RScal (@clip_force RScal (p_facc o) (@lmulv RScal m m La (repeat 0 m))) i = 0).
    { apply (clip_zero (p_facc o) m); [apply (@lmulv_length RScal)|]. intros j Hj. match goal with |- @coef RScal ?v j = _ => change (@coef RScal v j) with (@qk RScal v j) end. rewrite lmulv_coef by auto.
      apply (@ksum_zero RScal RLaws). intros l Hl. replace (@qk RScal (repeat 0 m) l) with 0; [apply Rmult_0_r|]. symmetry. apply (nth_repeat 0 m l). }
    assert (LZ : List.length (@clip_force RScal (p_facc o) (@lmulv RScal m m La (repeat 0 m))) = m).
    { destruct (clip_spec (p_facc o) (@lmulv RScal m m La (repeat 0 m)) Hp) as (c' & -> & _). rewrite map_length. apply (@lmulv_length RScal). }
    specialize (Z i Hi). unfold coef in Z. fold (@qk RScal (@clip_force RScal (p_facc o) (@lmulv RScal m m La (repeat 0 m))) i) in Z.
    unfold oid_F0. cbn zeta. rewrite LJ. fold La F0 F.
    change (@kadd RScal) with Rplus. change (@kmul RScal) with Rmult. change (@entry RScal J i k) with (@ent RScal J i k). change (@coef RScal F i) with (@qk RScal F i).
    assert (JL : forall x, List.length (jbt solve pinv ab J (p_svd o) x) = m) by (intros; rewrite jbt_length; auto).
    assert (VL : forall x y : list R, List.length x = m -> List.length y = m -> List.length (@vadd RScal x y) = m) by (intros; apply (@vadd_length RScal m); auto).
    assert (VQ : forall x y : list R, List.length x = m -> List.length y = m -> @qk RScal (@vadd RScal x y) i = @qk RScal x i + @qk RScal y i) by (intros; apply (@coef_vadd RScal m); auto).
    destruct b, (p_grav o); repeat (rewrite VQ by auto); rewrite Z; match goal with |- @eq _ ?a ?b => change (@eq R a b) end; ring.
  - exists c. split; [auto|]. intros i Hi. rewrite E1, coef_scale by (rewrite <- LF0 in Hi; exact Hi). f_equal.
    rewrite EF0. apply (@coef_vec RScal m (@row_times RScal m La ddx) i Hi).
  - rewrite <- EF0. intros H i Hi. rewrite (E4 H), EF0. apply (@coef_vec RScal m (@row_times RScal m La ddx) i Hi).
  - rewrite <- EF0. auto.
Qed.
End ClipApi.
