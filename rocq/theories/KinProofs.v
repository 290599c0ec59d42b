(** Forward kinematics and Jacobians. *)
From Coq Require Import List Arith ZArith Bool Lia Ring Field.
From Verif Require Import Scalar Base Spatial SpecGeo Joint Body Kin InvDyn FwdDyn Opspace OpspaceAba Deriv Sim Ops Specs SpecCache SpecKin SpatialProofs TreeProofs CacheProofs CacheOps JointProofs.
Import ListNotations.

Section KinProofs.
Context {S : Scal}.
Variable solve : list (list K) -> list K -> list K.
Variable pinv : list (list K) -> K -> list (list K) * bool.

Lemma twv_eq ab i : tree_ok ab -> i < ab_dof ab ->
  twv ab i = match par ab i with None => iso_mul (ab_Tbase ab) (tpv ab i) | Some p => iso_mul (twv ab p) (tpv ab i) end.
Proof. intros T Hi. unfold twv. rewrite tval_eq by auto. reflexivity. Qed.
Lemma twv_path ab i : tree_ok ab -> i < ab_dof ab ->
  twv ab i = fold_left (fun T j => iso_mul T (tpv ab j)) (anc_at ab i) (ab_Tbase ab).
Proof.
  intros T. induction i as [i IH] using lt_wf_ind. intros Hi. rewrite twv_eq, (tk_anc_at _ T i Hi) by auto.
  destruct (par ab i) as [p|] eqn:E; [|reflexivity].
  pose proof (tree_par _ _ _ T Hi E). rewrite fold_left_app, <- IH by lia. reflexivity.
Qed.
Lemma anc_lt ab i j : tree_ok ab -> i < ab_dof ab -> In j (anc_at ab i) -> j < ab_dof ab.
Proof. intros T Hi H. apply (tree_in_anc_le ab j i T Hi) in H. lia. Qed.
Lemma tp_api ab j q : tree_ok ab -> j < ab_dof ab -> T_to_parent_q ab (Z.of_nat j) q = Ok (T_par_q ab j q).
Proof. intros T Hj. unfold T_to_parent_q. rewrite (tk_rbs _ T), idx_nat; auto. Qed.

(** Histories and paths *)
Lemma par_requested h ab i : reached solve pinv h ab -> i < ab_dof ab -> par ab i = requested_parent (accepted h) i.
Proof.
  intros R Hi. pose proof (tree_reached _ _ _ _ R) as T. pose proof (reached_links _ _ _ _ R) as E.
  unfold par, rb_at, requested_parent. rewrite E.
  assert (Hl : i < List.length (accepted h)).
  { rewrite <- (as_links_length 0), <- E, (tk_rbs _ T); auto. }
  destruct (nth_error (accepted h) i) as [[rb p]|] eqn:Q; [|apply nth_error_None in Q; lia].
  rewrite (as_links_nth 0 _ _ rb_default _ Q). reflexivity.
Qed.
Lemma is_path_ext f g l i : is_path f l i -> (forall j, In j l -> f j = g j) -> is_path g l i.
Proof.
  induction 1; intros HE.
  - constructor. rewrite <- HE; auto. left; auto.
  - econstructor; [rewrite <- HE; eauto; apply in_or_app; right; left; auto|]. apply IHis_path. intros; apply HE. apply in_or_app; auto.
Qed.
Lemma reached_path h ab i : reached solve pinv h ab -> i < ab_dof ab -> is_path (requested_parent (accepted h)) (anc_at ab i) i.
Proof.
  intros R Hi. pose proof (tree_reached _ _ _ _ R) as T. eapply is_path_ext; [apply tree_path; auto|].
  intros j Hj. apply par_requested; auto. eapply anc_lt; eauto.
Qed.

Lemma product_anc ab i q : tree_ok ab -> i < ab_dof ab ->
  product_along ab q (anc_at ab i) (fold_left (fun T j => iso_mul T (T_par_q ab j (qk q j))) (anc_at ab i) (ab_Tbase ab)).
Proof.
  intros T Hi. exists (map (fun j => T_par_q ab j (qk q j)) (anc_at ab i)). split.
  - assert (H : forall j, In j (anc_at ab i) -> j < ab_dof ab) by (intros; eapply anc_lt; eauto).
    induction (anc_at ab i) as [|x l IH]; cbn; constructor.
    + apply tp_api; auto. apply H; left; auto.
    + apply IH. intros; apply H; right; auto.
  - generalize (ab_Tbase ab). induction (anc_at ab i) as [|x l IH]; cbn; auto.
Qed.

Lemma c07_world {AC : AddComm S} h ab z i : reached solve pinv h ab -> base_fixed false h = true -> idx (ab_dof ab) z = Some i ->
  exists path T, is_path (requested_parent (accepted h)) path i /\ product_along ab (ab_q ab) path T /\
    outcome (ask solve pinv (QTw z) ab) = Ok (AIso T) /\ outcome (ask solve pinv (QOri z) ab) = Ok (AM3 (rot T)) /\
    (forall off, outcome (ask solve pinv (QPos z off) ab) = Ok (AV3 (iso_app T off)) /\
                 outcome (ask solve pinv (QPose z off) ab) = Ok (AIso (Iso (rot T) (iso_app T off)))) /\
    exists t, T_to_parent_q ab z (nth i (ab_q ab) k0) = Ok t /\ outcome (ask solve pinv (QTp z) ab) = Ok (AIso t).
Proof.
  intros R B Q. destruct (reached_wfc _ _ _ _ R B) as [T W]. pose proof Q as Q'. apply idx_spec in Q'. destruct Q' as [Hi _].
  exists (anc_at ab i), (twv ab i). split; [apply reached_path; auto|]. split; [rewrite twv_path by auto; apply product_anc; auto|].
  cbn [ask]. rewrite !outcome_wrap, out_Ori, out_Tw, out_Tp, Q by auto. cbn. split; [auto|]. split; [auto|]. split.
  - intros off. rewrite !outcome_wrap, out_Pos, out_Pose, out_Tw, Q by auto. cbn. auto.
  - exists (tpv ab i). split; auto. unfold T_to_parent_q. rewrite (tk_rbs _ T), Q. reflexivity.
Qed.
Lemma c07_range {AC : AddComm S} h ab z off : reached solve pinv h ab -> idx (ab_dof ab) z = None ->
  (ask solve pinv (QTw z) ab = UB /\ ask solve pinv (QTp z) ab = UB /\ ask solve pinv (QPos z off) ab = UB /\
   ask solve pinv (QOri z) ab = UB /\ ask solve pinv (QPose z off) ab = UB /\ ask solve pinv (QJac z off) ab = UB) /\
  forall q, Position_q ab q z off = UB /\ Orientation_q ab q z = UB /\ Jacobian_q ab q z off = UB.
Proof.
  intros R Q. pose proof (tree_reached _ _ _ _ R) as T. destruct (tk_cache _ T) as [c E].
  cbn [ask]. unfold q_Position, q_Orientation, q_CartesianPose, q_T_to_world, q_T_to_parent, q_Jacobian, on_cache. rewrite E, Q. cbn.
  split; [repeat split; auto|]. intros q. unfold Position_q, Orientation_q, Jacobian_q. rewrite (tk_rbs _ T), Q. auto.
Qed.

Lemma in_range_anc (q : list K) l : (forall j, In j l -> j < List.length q) -> in_range q l = true.
Proof. intros H. apply forallb_forall. intros x Hx. apply Nat.ltb_lt. auto. Qed.

(** C31 *)
Lemma c31 (ab : body) z q : T_to_world_q ab z q = UB.
Proof.
  unfold T_to_world_q. destruct (idx _ _) as [i|]; auto. destruct (in_range _ _); auto.
  induction (up_chain ab i); cbn; auto.
Qed.
Lemma c31_pose (ab : body) z q off : CartesianPose_q ab q z off = UB.
Proof. unfold CartesianPose_q. rewrite c31. reflexivity. Qed.

(** C08 *)
Lemma jacv_at ab l off j : tree_ok ab -> l < ab_dof ab ->
  jacv ab l off j = if existsb (Nat.eqb j) (anc_at ab l) then jac_col ab (twv ab j) (iso_app (twv ab l) off) j else mzero.
Proof.
  intros T Hl. unfold jacv, jac_loop. pose proof (tree_anc_nodup ab l T Hl) as ND. revert ND.
  generalize (iso_app (twv ab l) off) as p. intros p.
  assert (X : forall L (a : arr motion), NoDup L -> fold_left (fun J i => upd J i (jac_col ab (twv ab i) p i)) L a j =
     if existsb (Nat.eqb j) L then jac_col ab (twv ab j) p j else a j).
  { induction L as [|x L IH]; cbn; auto. intros a ND. inversion ND; subst. rewrite IH by auto.
    destruct (existsb (Nat.eqb j) L) eqn:E; [rewrite orb_true_r; auto|]. rewrite orb_false_r. unfold upd.
    destruct (Nat.eqb_spec j x); subst; auto. }
  intros ND. apply X; auto.
Qed.
Lemma path_T_tw ab l : tree_ok ab -> l < ab_dof ab ->
  path_T ab (ab_q ab) (ab_Tbase ab) (anc_at ab l) = map (twv ab) (anc_at ab l).
Proof.
  intros T. induction l as [l IH] using lt_wf_ind. intros Hl. rewrite (tk_anc_at _ T l Hl).
  assert (A : forall a b T0, path_T ab (ab_q ab) T0 (a ++ b) = path_T ab (ab_q ab) T0 a ++
     path_T ab (ab_q ab) (fold_left (fun T j => iso_mul T (tpv ab j)) a T0) b).
  { induction a as [|x a IHa]; intros b T0; cbn; auto. f_equal. apply IHa. }
  destruct (par ab l) as [p|] eqn:E.
  - pose proof (tree_par _ _ _ T Hl E). rewrite A, map_app, IH by lia. f_equal. cbn. f_equal.
    rewrite <- twv_path by (auto; lia). rewrite (twv_eq ab l), E by auto. reflexivity.
  - cbn. rewrite (twv_eq ab l), E by auto. reflexivity.
Qed.
Lemma anc_last ab l : tree_ok ab -> l < ab_dof ab -> exists a, anc_at ab l = a ++ [l].
Proof. intros T Hl. rewrite (tk_anc_at _ T l Hl). destruct (par ab l); [eexists; reflexivity|]. exists nil; auto. Qed.
Lemma Jacobian_q_stored ab z off : tree_ok ab ->
  Jacobian_q ab (ab_q ab) z off = match idx (ab_dof ab) z with None => UB | Some l => Ok (vec (ab_dof ab) (jacv ab l off)) end.
Proof.
  intros T. unfold Jacobian_q. destruct (idx _ _) as [l|] eqn:Q; auto. apply idx_spec in Q. destruct Q as [Hl _].
  rewrite (in_range_anc _ _) by (intros j Hj; rewrite (tk_q _ T); eapply anc_lt; eauto).
  rewrite path_T_tw by auto. f_equal. apply vec_ext. intros j Hj. unfold jacv, jac_loop.
  assert (P : last (map (twv ab) (anc_at ab l)) iso_id = twv ab l).
  { destruct (anc_last ab l T Hl) as [a ->]. rewrite map_app. cbn. apply last_last. }
  rewrite P. clear P. generalize (fun _ : nat => @mzero S). induction (anc_at ab l) as [|x L IH]; cbn; auto.
Qed.

Lemma c08_overloads {AC : AddComm S} {E : EqSound S} h ab z off : reached solve pinv h ab -> base_fixed false h = true ->
  outcome (ask solve pinv (QJac z off) ab) = bind (Jacobian_q ab (ab_q ab) z off) (fun J => Ok (AMots J)).
Proof.
  intros R B. destruct R as (nm & mem & R0). assert (R : reached solve pinv h ab) by (exists nm, mem; auto).
  rewrite (c03_jac_exact solve pinv h ab mem (QJac z off)) by auto.
  pose proof (tree_reached _ _ _ _ R) as T. cbn [ask]. rewrite outcome_wrap, cold_jac, Jacobian_q_stored by auto. reflexivity.
Qed.
Lemma c08_sparse h ab ab' z i off J : reached solve pinv h ab -> base_fixed false h = true -> AddComm S ->
  idx (ab_dof ab) z = Some i -> ask solve pinv (QJac z off) ab = Ok (ab', AMots J) ->
  List.length J = ab_dof ab /\
  forall path j, is_path (requested_parent (accepted h)) path i -> ~ In j path -> nth j J mzero = mzero.
Proof.
  intros R B AC Q E. destruct (reached_wfc _ _ _ _ R B) as [T W].
  destruct (out_Jac ab T W z off) as (o' & _ & X). cbn [ask] in E. apply wrap_inv in E. destruct E as (y & E & H). inversion H; subst y; clear H.
  rewrite E, Q in X. cbn in X. inversion X; subst. split; [apply vec_length|].
  apply idx_spec in Q. destruct Q as [Hi _]. intros path j P NI.
  rewrite (is_path_unique _ _ _ _ P (reached_path h ab i R Hi)) in NI.
  destruct (Nat.lt_ge_cases j (ab_dof ab)); [|apply nth_overflow; rewrite vec_length; auto].
  rewrite nth_vec by auto. rewrite jacv_at by auto.
  destruct (existsb (Nat.eqb j) (anc_at ab i)) eqn:Ex; auto. apply existsb_exists in Ex. destruct Ex as (x & Hx & Ex).
  apply Nat.eqb_eq in Ex. subst. tauto.
Qed.
Lemma c08_halves {AC : AddComm S} h ab z off : reached solve pinv h ab -> base_fixed false h = true ->
  match outcome (ask solve pinv (QJac z off) ab) with
  | Ok (AMots J) => outcome (ask solve pinv (QLin z off) ab) = Ok (AV3s (map mlin J)) /\
                    outcome (ask solve pinv (QAng z) ab) = Ok (AV3s (map mang J))
  | Ok _ => False
  | Throw => False
  | UB => idx (ab_dof ab) z = None
  end.
Proof.
  intros R B. destruct (reached_wfc _ _ _ _ R B) as [T W]. cbn [ask].
  destruct (out_Jac ab T W z off) as (o' & _ & X).
  rewrite !outcome_wrap, out_Lin, out_Ang, X by auto. destruct (idx _ _) as [l|] eqn:Q; cbn; auto. split; auto.
  f_equal. f_equal. unfold vec. rewrite map_map. apply map_ext. intros j. apply jacv_ang.
Qed.

Section Laws.
Context {L : ScalLaws S}.
Lemma position_stored ab z off : tree_ok ab ->
  Position_q ab (ab_q ab) z off = match idx (ab_dof ab) z with None => UB | Some l => Ok (iso_app (twv ab l) off) end.
Proof.
  intros T. unfold Position_q. rewrite (tk_rbs _ T). destruct (idx _ _) as [l|] eqn:Q; auto. apply idx_spec in Q. destruct Q as [Hl _].
  rewrite up_chain_anc by auto. rewrite (in_range_anc _ _) by (intros j Hj; apply in_rev in Hj; rewrite (tk_q _ T); eapply anc_lt; eauto).
  f_equal. rewrite twv_path by auto. rewrite <- fold_left_rev_right, rev_involutive.
  generalize (ab_Tbase ab). induction (anc_at ab l) as [|x a IH]; cbn; auto. intros B. rewrite <- IH, iso_app_mul. reflexivity.
Qed.
Lemma orientation_stored ab z : tree_ok ab ->
  Orientation_q ab (ab_q ab) z = match idx (ab_dof ab) z with None => UB | Some l => Ok (rot (twv ab l)) end.
Proof.
  intros T. unfold Orientation_q. rewrite (tk_rbs _ T). destruct (idx _ _) as [l|] eqn:Q; auto. apply idx_spec in Q. destruct Q as [Hl _].
  rewrite up_chain_anc by auto. rewrite (in_range_anc _ _) by (intros j Hj; apply in_rev in Hj; rewrite (tk_q _ T); eapply anc_lt; eauto).
  f_equal. rewrite twv_path by auto. rewrite <- fold_left_rev_right, rev_involutive.
  generalize (ab_Tbase ab). induction (anc_at ab l) as [|x a IH]; cbn; intros B; [apply m3mul_id_r|]. rewrite <- IH. cbn.
  rewrite m3mul_assoc. rewrite !m3mul_assoc; reflexivity.
Qed.
Lemma c07_explicit h ab z off : reached solve pinv h ab -> base_fixed false h = true ->
  outcome (ask solve pinv (QPos z off) ab) = bind (Position_q ab (ab_q ab) z off) (fun p => Ok (AV3 p)) /\
  outcome (ask solve pinv (QOri z) ab) = bind (Orientation_q ab (ab_q ab) z) (fun R => Ok (AM3 R)).
Proof.
  intros R B. assert (AC : AddComm S) by apply laws_comm. destruct (reached_wfc _ _ _ _ R B) as [T W]. cbn [ask].
  rewrite !outcome_wrap, out_Pos, out_Ori, out_Tw, position_stored, orientation_stored by auto.
  destruct (idx _ _); cbn; auto.
Qed.

Lemma rigid_robot_at ab i : rigid_robot ab -> tree_ok ab -> i < ab_dof ab -> rigid (rb_T (rb_at ab i)).
Proof.
  intros [_ H] T Hi. rewrite Forall_forall in H. apply H. unfold rb_at. apply nth_In. rewrite (tk_rbs _ T); auto.
Qed.
Lemma T_par_rigid ab i q : rigid_robot ab -> tree_ok ab -> i < ab_dof ab -> rigid (T_par_q ab i q).
Proof. intros H T Hi. apply rigid_mul; [apply rigid_robot_at; auto|apply T_joint_rigid]. Qed.
Lemma tpv_rigid ab i : rigid_robot ab -> tree_ok ab -> i < ab_dof ab -> rigid (tpv ab i).
Proof. apply T_par_rigid. Qed.
Lemma twv_rigid ab i : rigid_robot ab -> tree_ok ab -> i < ab_dof ab -> rigid (twv ab i).
Proof.
  intros H T. induction i as [i IH] using lt_wf_ind. intros Hi. rewrite twv_eq by auto.
  destruct (par ab i) as [p|] eqn:E; apply rigid_mul; auto using tpv_rigid.
  - pose proof (tree_par _ _ _ T Hi E). apply IH; auto; lia.
  - apply H.
Qed.
Lemma c26_world h ab z : reached solve pinv h ab -> base_fixed false h = true -> rigid_robot ab ->
  match outcome (ask solve pinv (QTw z) ab), outcome (ask solve pinv (QTp z) ab) with
  | Ok (AIso T), Ok (AIso t) => rigid T /\ rigid t
  | UB, UB => idx (ab_dof ab) z = None
  | _, _ => False
  end.
Proof.
  intros R B H. assert (AC : AddComm S) by apply laws_comm. destruct (reached_wfc _ _ _ _ R B) as [T W]. cbn [ask].
  rewrite !outcome_wrap, out_Tw, out_Tp by auto. destruct (idx _ _) as [l|] eqn:Q; cbn; auto. apply idx_spec in Q. destruct Q as [Hl _].
  split; [apply twv_rigid|apply tpv_rigid]; auto.
Qed.
End Laws.

(** C06 *)
Lemma c06_world ab z ab1 x T ab2 q : ask solve pinv (QTw z) ab = Ok (ab1, x) -> set_T_base T ab1 = Ret ab2 tt ->
  world_query q = true -> outcome (ask solve pinv q ab2) = outcome (ask solve pinv q ab1).
Proof.
  intros E H Hq. cbn [ask] in E. apply wrap_inv in E. destruct E as (y & E & _).
  unfold q_T_to_world, on_cache in E. destruct (ab_cache ab) as [c|]; [|discriminate]. destruct (idx _ _); cbn in E; [|discriminate].
  inversion E; subst; clear E. inversion H; subst; clear H.
  assert (F : is_Tw (ca_T (ensure_Tw ab c)) = true) by (unfold ensure_Tw; destruct (is_Tw (ca_T c)) eqn:F; auto).
  assert (X : forall a c z, ab_cache a = Some c -> is_Tw (ca_T c) = true -> outcome (q_T_to_world z a) =
     match idx (ab_dof a) z with None => UB | Some i => Ok (c_Tw (ca_T c) i) end).
  { clear. intros a c z E F. unfold q_T_to_world. rewrite outcome_on_cache, E. destruct (idx _ _); auto. unfold ensure_Tw. rewrite F. reflexivity. }
  destruct q; try discriminate; cbn [ask]; rewrite !outcome_wrap, ?out_Pos, ?out_Ori, ?out_Pose;
    rewrite !(X _ (ensure_Tw ab c)) by auto; reflexivity.
Qed.
Lemma c06_gravity ab ab1 x T ab2 : ask solve pinv QGrav ab = Ok (ab1, x) -> set_T_base T ab1 = Ret ab2 tt ->
  outcome (ask solve pinv QGrav ab2) = Ok x.
Proof.
  intros E H. cbn [ask] in *. apply wrap_inv in E. destruct E as (y & E & ->).
  unfold q_Gravity, on_cache in E. destruct (ab_cache ab) as [c|]; [|discriminate]. cbn in E. inversion E; subst; clear E.
  inversion H; subst; clear H. rewrite outcome_wrap. unfold q_Gravity. rewrite outcome_on_cache. cbn [ab_cache set_cache].
  assert (F : is_grav (ca_grav (ensure_grav ab c)) = true).
  { unfold ensure_grav. destruct (is_grav (ca_grav c)) eqn:F; auto. destruct (for_down _ _ _). reflexivity. }
  assert (X : forall ab' c', is_grav (ca_grav c') = true -> ensure_grav ab' c' = c') by (intros ab' c' F'; unfold ensure_grav; rewrite F'; reflexivity).
  rewrite X by auto. reflexivity.
Qed.
Lemma c06_jacobian ab z off ab1 x T ab2 : v3eqb off off = true -> ask solve pinv (QJac z off) ab = Ok (ab1, x) -> set_T_base T ab1 = Ret ab2 tt ->
  outcome (ask solve pinv (QJac z off) ab2) = outcome (ask solve pinv (QJac z off) ab1).
Proof.
  intros N E H. cbn [ask] in *. apply wrap_inv in E. destruct E as (y & E & ->).
  unfold q_Jacobian, on_cache in E. destruct (ab_cache ab) as [c|]; [|discriminate]. destruct (idx _ _) as [l|] eqn:Q; [|discriminate].
  cbn in E. inversion E; subst; clear E. inversion H; subst; clear H. rewrite !outcome_wrap. unfold q_Jacobian. rewrite !outcome_on_cache.
  cbn [ab_cache set_cache ab_dof]. rewrite Q.
  assert (X : forall ab', ensure_jac ab' l off (ensure_jac ab l off c) = ensure_jac ab l off c).
  { assert (Y : forall ab' c', (is_jac (ca_jac c') && Nat.eqb (j_link (ca_jac c')) l && v3eqb (j_offset (ca_jac c')) off)%bool = true -> ensure_jac ab' l off c' = c')
      by (intros ab' c' F'; unfold ensure_jac; rewrite F'; reflexivity).
    intros ab'. apply Y. unfold ensure_jac.
    destruct (is_jac (ca_jac c) && Nat.eqb (j_link (ca_jac c)) l && v3eqb (j_offset (ca_jac c)) off)%bool eqn:F; [exact F|].
    cbn [ca_jac is_jac j_link j_offset with_jac]. rewrite Nat.eqb_refl, N. reflexivity. }
  rewrite !X. reflexivity.
Qed.

End KinProofs.
