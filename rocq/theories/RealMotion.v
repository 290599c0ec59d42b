(** Robots moving along differentiable paths (C09, C15, C23). *)
From Coq Require Import List Arith ZArith Bool Lia Reals Lra.
From Verif Require Import Scalar Base Spatial SpecGeo Joint Body Kin InvDyn FwdDyn Opspace OpspaceAba Deriv Sim Ops Instances Specs SpecCache SpecKin SpecDyn SpecReal SpatialTac SpatialProofs TreeProofs CacheProofs CacheOps JointProofs BigSum KinProofs WorldProofs DynProofs LoadProofs DynApi RealDyn RealCalc.
Import ListNotations.
Local Existing Instances RScal RLaws RPos REq.
Local Open Scope R_scope.

(** The robot in another state. *)
Definition at_ (ab : @body RScal) (q dq : list R) : @body RScal :=
  Body (ab_name ab) (ab_graphics ab) (ab_cache ab) (ab_dof ab) (ab_rbs ab) q dq (ab_g ab)
       (ab_loads ab) (ab_Tbase ab) (ab_Ibase ab) (ab_anc ab) (ab_sub ab).
Lemma at_tree ab q dq : tree_ok ab -> List.length q = ab_dof ab -> List.length dq = ab_dof ab -> tree_ok (at_ ab q dq).
Proof. intros [A B C D E F G H K0 L] Hq Hd. constructor; auto. Qed.
Lemma at_same ab : at_ ab (ab_q ab) (ab_dq ab) = ab.
Proof. destruct ab; reflexivity. Qed.

Lemma joint_at ab i : proper_joints ab -> tree_ok ab -> (i < ab_dof ab)%nat ->
  jsub (rb_joint (rb_at ab i)) = subspace_of (jtyp (rb_joint (rb_at ab i))).
Proof.
  intros H T Hi. unfold proper_joints in H. rewrite Forall_forall in H. apply H. unfold rb_at. apply nth_In. rewrite (tk_rbs _ T); auto.
Qed.
Lemma madd_comm (a b : @motion RScal) : madd a b = madd b a.
Proof. cases; runf; ext; rr. Qed.
Lemma mot_ext (a b : @motion RScal) : mlin a = mlin b -> mang a = mang b -> a = b.
Proof. destruct a, b; cbn; intros; subst; auto. Qed.

Section Motion.
Variable ab : @body RScal.
Hypothesis T : tree_ok ab.
Hypothesis Rr : rigid_robot ab.
Hypothesis Pj : proper_joints ab.
Let n := ab_dof ab.

Section Path.
Variables q dq : R -> list R.
Hypothesis Lq : forall u, List.length (q u) = n.
Hypothesis Ld : forall u, List.length (dq u) = n.
Let B u := at_ ab (q u) (dq u).
Lemma B_tree u : tree_ok (B u).
Proof. apply at_tree; auto. Qed.
Lemma B_rigid u : rigid_robot (B u).
Proof. exact Rr. Qed.

Variable t : R.
Hypothesis Hq : vec_deriv n q t (dq t).
Lemma tp_deriv i : (i < n)%nat -> iso_deriv (fun u => tpv (B u) i) t (mscale (@qk RScal (dq t) i) (sub_at ab i)).
Proof.
  intros Hi. unfold tpv, T_par_q. cbn [B at_ ab_q].
  eapply iso_deriv_eq.
  - apply (iso_deriv_mul (fun _ => rb_T (rb_at ab i)) (fun u => T_joint (rb_joint (rb_at ab i)) (@qk RScal (q u) i))); [apply iso_deriv_const| |apply T_joint_rigid].
    apply (joint_deriv (rb_joint (rb_at ab i)) (fun u => @qk RScal (q u) i)); [apply joint_at; auto|]. apply Hq; auto.
  - rewrite mact_zero. unfold sub_at. change (@coef RScal (dq t) i) with (@qk RScal (dq t) i). generalize (mscale (@qk RScal (dq t) i) (jsub (rb_joint (rb_at ab i)))).
    intros; cases; runf; ext; rr.
Qed.
Lemma tw_deriv i : (i < n)%nat -> iso_deriv (fun u => twv (B u) i) t (velv (B t) i).
Proof.
  induction i as [i IH] using lt_wf_ind. intros Hi.
  eapply iso_deriv_ext; [intros u; apply (twv_eq (B u) i (B_tree u) Hi)|].
  assert (V : velv (B t) i = match par (B t) i with None => mscale (@qk RScal (dq t) i) (sub_at ab i)
     | Some p => madd (mscale (@qk RScal (dq t) i) (sub_at ab i)) (mact (iso_inv (tpv (B t) i)) (velv (B t) p)) end).
  { unfold velv. rewrite tval_eq by (auto using B_tree). reflexivity. }
  rewrite V. change (par (B t) i) with (par ab i). change (fun u => match par (B u) i with Some p => iso_mul (twv (B u) p) (tpv (B u) i)
     | None => iso_mul (ab_Tbase (B u)) (tpv (B u) i) end) with
     (fun u => match par ab i with Some p => iso_mul (twv (B u) p) (tpv (B u) i) | None => iso_mul (ab_Tbase ab) (tpv (B u) i) end).
  assert (RT : rigid (tpv (B t) i)) by (apply (tpv_rigid (B t) i (B_rigid t) (B_tree t)); auto).
  destruct (par ab i) as [p|] eqn:E.
  - pose proof (tree_par _ _ _ T Hi E).
    eapply iso_deriv_eq; [apply iso_deriv_mul; [apply IH; [lia|unfold n in *; lia]|apply tp_deriv; auto|auto]|]. apply madd_comm.
  - eapply iso_deriv_eq; [apply iso_deriv_mul; [apply iso_deriv_const|apply tp_deriv; auto|auto]|].
    rewrite mact_zero. generalize (mscale (@qk RScal (dq t) i) (sub_at ab i)). intros; cases; runf; ext; rr.
Qed.

Lemma vel_eq u i : (i < n)%nat -> velv (B u) i = match par ab i with None => mscale (@qk RScal (dq u) i) (sub_at ab i)
     | Some p => madd (mscale (@qk RScal (dq u) i) (sub_at ab i)) (mact (iso_inv (tpv (B u) i)) (velv (B u) p)) end.
Proof. intros Hi. unfold velv. rewrite tval_eq by (auto using B_tree). reflexivity. Qed.
Variable ddq : list R.
Hypothesis Hdq : vec_deriv n dq t ddq.
Lemma vel_deriv o i : o_grav o = false -> o_cc o = true -> (i < n)%nat -> mot_deriv (fun u => velv (B u) i) t (accv (B t) o ddq i).
Proof.
  intros Og Oc. induction i as [i IH] using lt_wf_ind. intros Hi.
  eapply mot_deriv_ext; [intros u; apply vel_eq; auto|].
  rewrite (accv_eq (B t) (B_tree t) o ddq i Hi), Og, Oc. change (par (B t) i) with (par ab i). change (sub_at (B t) i) with (sub_at ab i). change (ab_dq (B t)) with (dq t).
  cbn zeta. rewrite (vel_eq t i Hi).
  destruct (par ab i) as [p|] eqn:E.
  - pose proof (tree_par _ _ _ T Hi E).
    eapply mot_deriv_eq.
    + apply mot_deriv_add; [apply mot_deriv_scale; apply Hdq; auto|].
      apply mot_deriv_into; [apply tp_deriv; auto|apply IH; [lia|unfold n in *; lia]|]. apply (tpv_rigid (B t) i (B_rigid t) (B_tree t)); auto.
    + cbv beta. change (@coef RScal ddq i) with (@qk RScal ddq i).
      generalize (mscale (@qk RScal (dq t) i) (sub_at ab i)) (mact (iso_inv (tpv (B t) i)) (velv (B t) p)) (mact (iso_inv (tpv (B t) i)) (accv (B t) o ddq p)) (mscale (@qk RScal ddq i) (sub_at ab i)).
      intros; rewrite mcross_add_l, mcross_self. rewrite (mcross_anti m0 m). generalize (mcross m m0). intros; cases; runf; ext; rr.
  - eapply mot_deriv_eq; [apply mot_deriv_scale; apply Hdq; auto|].
    rewrite mcross_self. change (@coef RScal ddq i) with (@qk RScal ddq i). generalize (mscale (@qk RScal ddq i) (sub_at ab i)). intros; cases; runf; ext; rr.
Qed.
End Path.

(** ** Points and orientations *)
Lemma rel_vel q x k : List.length q = n -> List.length x = n -> (k < n)%nat -> rel (at_ ab q x) x k = mact (twv (at_ ab q x) k) (velv (at_ ab q x) k).
Proof.
  intros Hq Hx Hk. rewrite (vel_world (at_ ab q x) (at_tree ab q x T Hq Hx) Rr) by auto. reflexivity.
Qed.
Lemma point_deriv q x t k off : (forall u, List.length (q u) = n) -> List.length x = n -> vec_deriv n q t x -> (k < n)%nat ->
  v3_deriv (fun u => Pall (at_ ab (q u) x) k off) t (mlin (velocity (Jall (at_ ab (q t) x) k off) x)) /\
  m3_deriv (fun u => Oall (at_ ab (q u) x) k) t (m3mul (skew (mang (velocity (Jall (at_ ab (q t) x) k off) x))) (Oall (at_ ab (q t) x) k)).
Proof.
  intros Lq Lx Hq Hk. set (dq := fun _ : R => x).
  assert (TW : iso_deriv (fun u => twv (at_ ab (q u) x) k) t (velv (at_ ab (q t) x) k))
    by (apply (tw_deriv q dq Lq (fun _ => Lx) t); auto).
  assert (Tt : tree_ok (at_ ab (q t) x)) by (apply at_tree; auto).
  assert (RX : is_rot (rot (twv (at_ ab (q t) x) k))) by (apply (twv_rigid (at_ ab (q t) x) k Rr Tt); auto).
  rewrite velocity_rel by auto. rewrite rel_vel by auto. cbn [mlin mang].
  unfold Pall, Oall. destruct TW as [T1 T2]. split.
  - unfold iso_app. eapply v3_deriv_eq; [apply v3_deriv_add; [apply v3_deriv_mulv; [exact T1|apply v3_deriv_const]|exact T2]|].
    revert RX. generalize (twv (at_ ab (q t) x) k) (velv (at_ ab (q t) x) k). intros X V RX.
    cbn [mact mlin mang]. rewrite m3mulv_mul, skew_mul. rewrite <- !rot_cross by auto.
    generalize (m3mulv (rot X) (mlin V)) (m3mulv (rot X) (mang V)) (m3mulv (rot X) off) (tra X) (rot X). intros. cases; runf; ext; rr.
  - eapply m3_deriv_eq; [exact T1|]. cbn [mact mang]. rewrite rot_skew by auto. rewrite rot_tr_mulv by auto. reflexivity.
Qed.
Lemma vec_of_list (x : list R) : vec (List.length x) (@coef RScal x) = x.
Proof.
  apply (@list_coef_ext RScal (List.length x)); auto; [apply vec_length|]. intros i Hi. rewrite (@coef_vec RScal) by auto. reflexivity.
Qed.
End Motion.

(** ** C09 *)
Section Api.
Variable solve : list (list R) -> list R -> list R.
Variable pinv : list (list R) -> R -> list (list R) * bool.

Lemma pos_at ab q dq z k off : tree_ok ab -> List.length q = ab_dof ab -> List.length dq = ab_dof ab -> idx (ab_dof ab) z = Some k ->
  Position_q ab q z off = Ok (Pall (at_ ab q dq) k off) /\ Orientation_q ab q z = Ok (Oall (at_ ab q dq) k) /\
  Jacobian_q ab q z off = Ok (Jall (at_ ab q dq) k off).
Proof.
  intros T Hq Hd Hz. pose proof (at_tree ab q dq T Hq Hd) as T'.
  pose proof (position_stored (at_ ab q dq) z off T') as E1. pose proof (orientation_stored (at_ ab q dq) z T') as E2.
  pose proof (Jacobian_q_stored (at_ ab q dq) z off T') as E3. cbn [ab_dof at_] in *. rewrite Hz in *. auto.
Qed.
Lemma c09_motion h ab (q : R -> list R) t dq z k off : reached solve pinv h ab -> rigid_robot ab -> proper_joints ab ->
  (forall u, List.length (q u) = ab_dof ab) -> List.length dq = ab_dof ab -> vec_deriv (ab_dof ab) q t dq -> idx (ab_dof ab) z = Some k ->
  exists P O J, (forall u, Position_q ab (q u) z off = Ok (P u)) /\ (forall u, Orientation_q ab (q u) z = Ok (O u)) /\
    Jacobian_q ab (q t) z off = Ok J /\ List.length J = ab_dof ab /\
    v3_deriv P t (mlin (velocity J dq)) /\ m3_deriv O t (m3mul (skew (mang (velocity J dq))) (O t)).
Proof.
  intros Rh Rr Pj Lq Ld Hq Hz. pose proof (tree_reached _ _ _ _ Rh) as T.
  exists (fun u => Pall (at_ ab (q u) dq) k off), (fun u => Oall (at_ ab (q u) dq) k), (Jall (at_ ab (q t) dq) k off).
  split; [intros u; eapply pos_at; eauto|]. split; [intros u; apply (pos_at ab (q u) dq z k off); auto|]. split; [eapply pos_at; eauto|].
  split; [exact (jall_length (at_ ab (q t) dq) k off)|]. apply point_deriv; auto. apply idx_spec in Hz. tauto.
Qed.
Lemma velocity_unit (J : list motion) n j : List.length J = n -> (j < n)%nat ->
  @velocity RScal J (vec n (fun i => if Nat.eqb i j then 1 else 0)) = col J j.
Proof.
  intros HJ Hj. unfold velocity. rewrite HJ. 
  assert (X : forall l, NoDup l -> (forall i, In i l -> (i < n)%nat) -> fold_right madd mzero (map (fun j0 => mscale (@coef RScal (vec n (fun i => if Nat.eqb i j then 1 else 0)) j0) (col J j0)) l) =
     if existsb (Nat.eqb j) l then col J j else @mzero RScal).
  { induction l as [|i l IH]; cbn [map fold_right existsb]; intros ND Hl; auto. inversion ND; subst. rewrite IH; auto; [|intros; apply Hl; right; auto].
    rewrite (@coef_vec RScal) by (apply Hl; left; auto). rewrite (Nat.eqb_sym j i). destruct (Nat.eqb_spec i j); cbn [orb].
    - subst. destruct (existsb (Nat.eqb j) l) eqn:E.
      + apply existsb_exists in E. destruct E as (y & Hy & E). apply Nat.eqb_eq in E. subst. tauto.
      + generalize (col J j). intros; cases; runf; ext; rr.
    - generalize (if existsb (Nat.eqb j) l then col J j else @mzero RScal) (col J i). intros; cases; runf; ext; rr. }
  rewrite X; [|apply seq_NoDup|intros i Hi; apply in_seq in Hi; lia].
  destruct (existsb (Nat.eqb j) (seq 0 n)) eqn:E; auto. exfalso.
  assert (existsb (Nat.eqb j) (seq 0 n) = true); [|congruence]. apply existsb_exists. exists j. split; [apply in_seq; lia|apply Nat.eqb_refl].
Qed.
Lemma replaced_length q j x : List.length (replaced q j x) = List.length q.
Proof. unfold replaced. rewrite map_length, seq_length. auto. Qed.
Lemma replaced_coef q j x i : (i < List.length q)%nat -> @coef RScal (replaced q j x) i = if Nat.eqb i j then x else @coef RScal q i.
Proof. intros Hi. unfold replaced. apply (@coef_vec RScal (List.length q) (fun i => if Nat.eqb i j then x else @coef RScal q i)); auto. Qed.
Lemma replaced_same q j : replaced q j (@coef RScal q j) = q.
Proof.
  apply (@list_coef_ext RScal (List.length q)); auto; [apply replaced_length|]. intros i Hi. rewrite replaced_coef by auto.
  destruct (Nat.eqb_spec i j); subst; auto.
Qed.
Lemma replaced_deriv q j x n : List.length q = n -> vec_deriv n (replaced q j) x (vec n (fun i => if Nat.eqb i j then 1 else 0)).
Proof.
  intros Hl i Hi. rewrite (@coef_vec RScal) by auto. eapply d_ext; [intros u; apply replaced_coef; lia|].
  destruct (Nat.eqb i j); [apply d_id|apply d_const].
Qed.
Lemma c09 h ab q z k off j : reached solve pinv h ab -> rigid_robot ab -> proper_joints ab ->
  List.length q = ab_dof ab -> idx (ab_dof ab) z = Some k -> (j < ab_dof ab)%nat ->
  exists P O J, (forall x, Position_q ab (replaced q j x) z off = Ok (P x)) /\
    (forall x, Orientation_q ab (replaced q j x) z = Ok (O x)) /\ Jacobian_q ab q z off = Ok J /\
    v3_deriv P (@coef RScal q j) (mlin (col J j)) /\
    m3_deriv O (@coef RScal q j) (m3mul (skew (mang (col J j))) (O (@coef RScal q j))).
Proof.
  intros Rh Rr Pj Lq Hz Hj.
  destruct (c09_motion h ab (replaced q j) (@coef RScal q j) (vec (ab_dof ab) (fun i => if Nat.eqb i j then 1 else 0)) z k off) as (P & O & J & H1 & H2 & H3 & H4 & H5 & H6); auto.
  - intros u. rewrite replaced_length. auto.
  - apply vec_length.
  - apply replaced_deriv; auto.
  - exists P, O, J. rewrite replaced_same in H3. rewrite velocity_unit in H5, H6 by auto. auto.
Qed.

(** ** Potential energy *)
Lemma d_total {A} (f : R -> A -> R) (f' : A -> R) t l : (forall x, In x l -> derivable_pt_lim (fun u => f u x) t (f' x)) ->
  derivable_pt_lim (fun u => @total RScal (map (f u) l)) t (@total RScal (map f' l)).
Proof.
  unfold total. induction l as [|x l IH]; cbn [map fold_right]; intros H; [apply d_const|].
  cbn [kadd RScal]. apply d_add; [apply H; left; auto|]. apply IH. intros; apply H; right; auto.
Qed.
Lemma total_cons (a : R) l : @total RScal (a :: l) = a + @total RScal l.
Proof. reflexivity. Qed.
Lemma dot_velocity g (J : list motion) x : v3dot g (mlin (@velocity RScal J x)) = @total RScal (map (fun j => @coef RScal x j * v3dot g (mlin (col J j))) (seq 0 (List.length J))).
Proof.
  unfold velocity. induction (seq 0 (List.length J)) as [|i l IH].
  - unfold total. cbn [map fold_right]. runf. destruct g. rr.
  - cbn [map fold_right]. 
    rewrite total_cons, <- IH.
    generalize (fold_right madd (@mzero RScal) (map (fun j => mscale (coef x j) (col J j)) l)) (col J i) (@coef RScal x i). intros. cases; runf; rr.
Qed.
Lemma total_opp {A} (f : A -> R) l : @total RScal (map (fun x => - f x) l) = - @total RScal (map f l).
Proof. induction l as [|x l IH]; cbn [map]; [unfold total; rr|]. rewrite !total_cons, IH. rr. Qed.
Lemma potential_motion h ab (q : R -> list R) t dq G : reached solve pinv h ab -> base_fixed false h = true -> proper ab -> proper_joints ab ->
  (forall u, List.length (q u) = ab_dof ab) -> List.length dq = ab_dof ab -> vec_deriv (ab_dof ab) q t dq ->
  (forall i, (i < ab_dof ab)%nat -> @coef RScal G i = - over_bodies ab (fun k B => imass B * v3dot (mlin (ab_g ab)) (mlin (col (Jall (at_ ab (q t) dq) k (icom B)) i)))) ->
  exists U, (forall u, potential ab (q u) (U u)) /\ derivable_pt_lim U t (inner dq G).
Proof.
  intros Rh Bf P Pj Lq Ld Hq HG. pose proof (tree_reached _ _ _ _ Rh) as T.
  exists (fun u => - over_bodies ab (fun k B => imass B * v3dot (mlin (ab_g ab)) (Pall (at_ ab (q u) dq) k (icom B)))). split.
  - intros u. exists (Pall (at_ ab (q u) dq)). split; auto. intros k off Hk. apply (pos_at ab (q u) dq (Z.of_nat k) k off); auto. apply idx_nat; auto.
  - eapply d_eq.
    + apply d_opp. unfold over_bodies, over_links. apply d_total. intros k Hk. apply in_seq in Hk. apply d_total. intros B0 _.
      apply d_mul; [apply d_const|]. apply v3_deriv_dot; [apply v3_deriv_const|].
      apply (point_deriv ab T (pr_rigid _ P) Pj q dq t k (icom B0)); auto. lia.
    + unfold inner. rewrite Ld.
      transitivity (- over_bodies ab (fun k B => @total RScal (map (fun i => @coef RScal dq i * (imass B * v3dot (mlin (ab_g ab)) (mlin (col (Jall (at_ ab (q t) dq) k (icom B)) i)))) (seq 0 (ab_dof ab))))).
      * f_equal. unfold over_bodies, over_links. apply (@total_ext RScal). intros k Hk. apply (@total_ext RScal). intros B0 _.
        rewrite dot_velocity, jall_length. cbn [ab_dof at_].
        replace (v3dot v3zero (Pall (at_ ab (q t) dq) k (icom B0))) with 0 by (generalize (Pall (at_ ab (q t) dq) k (icom B0)); intros; cases; runf; rr).
        transitivity (imass B0 * (@total RScal (map (fun j => @coef RScal dq j * v3dot (mlin (ab_g ab)) (mlin (col (Jall (at_ ab (q t) dq) k (icom B0)) j))) (seq 0 (ab_dof ab))))); [match goal with |- @eq _ ?a ?b => change (@eq R a b) end; cbn [kadd kmul k0 RScal]; ring|].
        rewrite <- (@total_scale RScal RLaws). apply (@total_ext RScal). intros i _. match goal with |- @eq _ ?a ?b => change (@eq R a b) end. cbn [kmul RScal]. ring.
      * rewrite (@over_bodies_total RScal RLaws), <- total_opp. apply (@total_ext RScal). intros i Hi. apply in_seq in Hi.
        rewrite HG by lia. rewrite (@over_bodies_scale RScal RLaws). match goal with |- @eq _ ?a ?b => change (@eq R a b) end. cbn [kmul RScal]. ring.
Qed.
End Api.
